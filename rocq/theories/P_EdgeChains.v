(** The chains of the monotone decomposition on arbitrary polygons: every edge is used
    once and diagonals are used in pairs. *)
Require Import List String Bool Arith Lia Permutation Sorted.
From Verif Require Import Base Scalar M_Events M_Geo M_LineOrPoint M_Slab M_Active M_MonoPoly M_Rings M_Op M_MonoSweep M_Chains.
From Verif Require Import S_Geo P_Geo P_Slab P_Rings S_Mono P_OpStep P_MonoSweep P_MonoChains P_MonoRun S_Chains P_MonoCount P_Mono Props_Mono P_EdgeSweep.
Import Datatypes.
Import ListNotations.
Local Open Scope nat_scope.
Notation edges_rev := P_MonoCount.edges_rev.

Definition cedges (c : mchain) : list (pt * pt) := map (ori (c_int c)) (redges (c_coords c)).
(** The last edge of an unfinished chain. *)
Definition chead (c : mchain) : list seg3 :=
  if c_done c then [] else match c_coords c with n :: q :: _ => [mk3 q n (c_int c)] | _ => [] end.
Definition heads (cs : list mchain) : list seg3 := flat_map chead cs.
Definition edgs (cs : list mchain) : list (pt * pt) := flat_map cedges cs.
Definition longs (cs : list mchain) : Prop := forall c, In c cs -> c_done c = false -> 2 <= length (c_coords c).
Definition sk (c : mchain) : winding * nat * bool := (c_int c, c_other c, c_done c).
Definition paired (l : list (winding * nat * bool)) : Prop :=
  forall i w o d, nth_error l i = Some (w, o, d) -> nth_error l o = Some (winding_inverse w, i, d).
Definition bal (B : list seg3) : Prop :=
  forall r, nb (fun t => peqb (tz t) r && is_cw (tw t)) B = nb (fun t => peqb (tz t) r && negb (is_cw (tw t))) B.

(** * Lists *)
Lemma exch : forall {X Y} (f : X -> list Y) l i a b, nth_error l i = Some a -> Permutation (f a ++ flat_map f (list_set i b l)) (f b ++ flat_map f l).
Proof.
  induction l as [|x l IH]; intros i a b Q; [destruct i; discriminate|]. destruct i as [|i].
  - cbn in Q. injection Q as ->. cbn [list_set flat_map]. rewrite !app_assoc. apply Permutation_app_tail, Permutation_app_comm.
  - cbn in Q. cbn [list_set flat_map]. specialize (IH i a b Q). rewrite !app_assoc. rewrite (Permutation_app_comm (f a)), (Permutation_app_comm (f b)), <- !app_assoc. apply Permutation_app_head. exact IH.
Qed.
Lemma map_set : forall {X Y} (f : X -> Y) l i b, map f (list_set i b l) = list_set i (f b) (map f l).
Proof. induction l as [|x l IH]; intros [|i] b; cbn; auto. rewrite IH. reflexivity. Qed.
Lemma set_id : forall {X} l i (a : X), nth_error l i = Some a -> list_set i a l = l.
Proof. induction l as [|x l IH]; intros [|i] a Q; cbn in *; try discriminate; [congruence|]. rewrite IH; auto. Qed.
Lemma set_set : forall {X} l i (a b : X), list_set i a (list_set i b l) = list_set i a l.
Proof. induction l as [|x l IH]; intros [|i] a b; cbn; auto. rewrite IH. reflexivity. Qed.
Lemma in_set : forall {X} l i (a : X) x, In x (list_set i a l) -> x = a \/ In x l.
Proof. induction l as [|y l IH]; intros [|i] a x I; cbn in *; auto; destruct I as [I|I]; auto. destruct (IH i a x I); auto. Qed.
Lemma bal_perm : forall B B', Permutation B B' -> bal B -> bal B'.
Proof. intros B B' P b r. rewrite <- !(nb_perm _ _ _ P). apply b. Qed.
Lemma nb_nil : forall {X} (f : X -> bool), nb f [] = 0. Proof. reflexivity. Qed.
Lemma bal_pair : forall e1 e2 B, tz e1 = tz e2 -> tw e2 = winding_inverse (tw e1) -> (bal (e1 :: e2 :: B) <-> bal B).
Proof.
  intros e1 e2 B Q W. unfold bal. split; intros b r; specialize (b r); rewrite !nb_cons in *; rewrite Q, W in *; destruct (peqb (tz e2) r), (tw e1); cbn [andb is_cw negb winding_inverse bn] in *; lia.
Qed.
Lemma bal_app : forall B C, bal B -> bal C -> bal (B ++ C).
Proof. intros B C b c r. rewrite !nb_app, b, c. reflexivity. Qed.
Lemma bal_out : forall h B, bal B -> bal (filter (fun t => negb (peqb (tz t) h)) B).
Proof.
  intros h B b r. assert (G : forall f : seg3 -> bool, nb (fun t => peqb (tz t) r && f t) (filter (fun t => negb (peqb (tz t) h)) B) = if peqb h r then 0 else nb (fun t => peqb (tz t) r && f t) B).
  { intros f. clear b. induction B as [|t B IH]; [destruct (peqb h r); reflexivity|]. cbn [filter]. destruct (peqb_spec (tz t) h) as [Q|Q]; cbn [negb].
    - rewrite IH, nb_cons, Q. destruct (peqb h r); reflexivity.
    - rewrite !nb_cons, IH. destruct (peqb_spec h r) as [Q'|Q']; auto. destruct (peqb_spec (tz t) r) as [Z|Z]; [congruence|reflexivity]. }
  rewrite !G, b. reflexivity.
Qed.
Lemma bal_at : forall h B, bal B -> nb (fun t => is_cw (tw t)) (filter (fun t => peqb (tz t) h) B) = nb (fun t => negb (is_cw (tw t))) (filter (fun t => peqb (tz t) h) B).
Proof.
  intros h B b. specialize (b h). assert (G : forall f : seg3 -> bool, nb f (filter (fun t => peqb (tz t) h) B) = nb (fun t => peqb (tz t) h && f t) B).
  { intros f. clear b. induction B as [|t B IH]; auto. cbn [filter]. rewrite nb_cons, <- IH. destruct (peqb (tz t) h); cbn [andb bn]; rewrite ?nb_cons; reflexivity. }
  rewrite !G. exact b.
Qed.
Lemma two_opp : forall l, length l = 2 -> nb (fun t => is_cw (tw t)) l = nb (fun t => negb (is_cw (tw t))) l -> exists a b, l = [a; b] /\ tw b = winding_inverse (tw a).
Proof.
  intros [|a [|b [|? ?]]] Ln B; try discriminate Ln. exists a, b. split; auto. revert B. unfold nb. cbn [filter]. destruct (tw a), (tw b); cbn; intros Z; auto; discriminate Z.
Qed.
(** Taking two balanced elements away. *)
Lemma take_two : forall e1 e2 H L B p, Permutation (e1 :: e2 :: H) (L ++ B) -> (forall t, In t L -> lex_lt p (tz t)) -> tz e1 = p -> tz e2 = p -> tw e2 = winding_inverse (tw e1) -> bal B ->
  exists B', Permutation H (L ++ B') /\ bal B' /\ incl B' B.
Proof.
  intros e1 e2 H L B p P LL Z1 Z2 W b. assert (I1 : In e1 B).
  { assert (I : In e1 (L ++ B)) by (apply (Permutation_in _ P); left; auto). apply in_app_or in I as [I|I]; auto. apply LL in I. rewrite Z1 in I. lord. }
  apply in_split in I1 as (B1 & B2 & ->). assert (P1 : Permutation (e2 :: H) (L ++ B1 ++ B2)).
  { apply (Permutation_cons_inv (a := e1)). rewrite P. rewrite !app_assoc. symmetry. apply Permutation_middle. }
  assert (I2 : In e2 (B1 ++ B2)).
  { assert (I : In e2 (L ++ B1 ++ B2)) by (apply (Permutation_in _ P1); left; auto). apply in_app_or in I as [I|I]; auto. apply LL in I. rewrite Z2 in I. lord. }
  apply in_split in I2 as (B3 & B4 & Q). rewrite Q in P1. exists (B3 ++ B4).
  assert (Pb : Permutation (B1 ++ e1 :: B2) (e1 :: e2 :: B3 ++ B4)).
  { rewrite <- Permutation_middle. apply perm_skip. rewrite Q. symmetry. apply Permutation_middle. }
  split; [|split].
  - apply (Permutation_cons_inv (a := e2)). rewrite P1. rewrite !app_assoc. symmetry. apply Permutation_middle.
  - apply (bal_pair e1 e2); [congruence|auto|]. apply (bal_perm _ _ Pb). exact b.
  - intros x I. apply (Permutation_in _ (Permutation_sym Pb)). right; right; auto.
Qed.

(** * Pairs of chains *)
Lemma paired_new : forall l w, paired l -> paired (l ++ [(w, S (length l), false); (winding_inverse w, length l, false)]).
Proof.
  intros l w Pl i w' o d Q. destruct (Nat.lt_ge_cases i (length l)) as [L|L].
  - rewrite nth_error_app1 in Q by auto. apply Pl in Q. rewrite nth_error_app1; auto. apply nth_error_Some. congruence.
  - rewrite nth_error_app2 in Q by auto. destruct (i - length l) as [|[|k]] eqn:K; cbn in Q.
    + injection Q as <- <- <-. rewrite nth_error_app2 by lia. replace (S (length l) - length l) with 1 by lia. cbn. repeat f_equal. lia.
    + injection Q as <- <- <-. rewrite nth_error_app2 by lia. rewrite Nat.sub_diag. cbn. rewrite inv_inv. repeat f_equal. lia.
    + destruct k; discriminate.
Qed.
Lemma inv_neq : forall w, winding_inverse w <> w. Proof. intros []; discriminate. Qed.
Lemma paired_neq : forall l i w o d, paired l -> nth_error l i = Some (w, o, d) -> o <> i.
Proof. intros l i w o d Pl Q ->. pose proof (Pl _ _ _ _ Q) as Q'. rewrite Q in Q'. injection Q' as Q'. symmetry in Q'. exact (inv_neq _ Q'). Qed.
Lemma paired_done : forall l i w j d, paired l -> nth_error l i = Some (w, j, d) -> paired (list_set j (winding_inverse w, i, true) (list_set i (w, j, true) l)).
Proof.
  intros l i w j d Pl Q. pose proof (Pl _ _ _ _ Q) as Q'. pose proof (paired_neq _ _ _ _ _ Pl Q) as N. assert (Li : i < length l) by (apply nth_error_Some; congruence). assert (Lj : j < length l) by (apply nth_error_Some; congruence).
  assert (Nj : nth_error (list_set j (winding_inverse w, i, true) (list_set i (w, j, true) l)) j = Some (winding_inverse w, i, true)) by (apply list_set_same; rewrite list_set_length; auto).
  assert (Ni : nth_error (list_set j (winding_inverse w, i, true) (list_set i (w, j, true) l)) i = Some (w, j, true)) by (rewrite list_set_other by auto; apply list_set_same; auto).
  intros k w' o d' Qk. destruct (Nat.eq_dec k j) as [->|Nk]; [rewrite Nj in Qk; injection Qk as <- <- <-; rewrite Ni, inv_inv; reflexivity|].
  destruct (Nat.eq_dec k i) as [->|Mk]; [rewrite Ni in Qk; injection Qk as <- <- <-; exact Nj|].
  rewrite !list_set_other in Qk by auto. apply Pl in Qk as Qo. rewrite !list_set_other; auto; intros Z; subst o; [rewrite Q in Qo|rewrite Q' in Qo]; injection Qo; congruence.
Qed.
Lemma paired_at : forall cs i c, paired (map sk cs) -> nth_error cs i = Some c ->
  exists c', nth_error cs (c_other c) = Some c' /\ c_int c' = winding_inverse (c_int c) /\ c_other c' = i /\ c_done c' = c_done c.
Proof.
  intros cs i c Pl Q. assert (Z : nth_error (map sk cs) i = Some (c_int c, c_other c, c_done c)) by (rewrite nth_error_map, Q; reflexivity). apply Pl in Z. rewrite nth_error_map in Z.
  destruct (nth_error cs (c_other c)) as [c'|]; [|discriminate]. exists c'. unfold sk in Z. cbn in Z. injection Z as -> -> ->. auto.
Qed.

(** * Searching the chains *)
Definition okb {A} (r : res A) (f : A -> bool) : bool := match r with Ok a => f a | _ => false end.
Lemma positions_inv : forall f cs k r, positions f k cs = Ok r ->
  NoDup r /\ (forall i, In i r <-> exists j c, i = k + j /\ nth_error cs j = Some c /\ f c = Ok true).
Proof.
  intros f. induction cs as [|c cs IH]; intros k r Q.
  - injection Q as <-. split; [constructor|]. intros i. split; [intros []|]. intros (j & c & _ & N & _). destruct j; discriminate.
  - cbn [positions] in Q. bnd Q. bnd Q. injection Q as <-. destruct (IH _ _ E0) as [N I].
    assert (Q : forall i, In i x0 <-> exists j c0, i = k + S j /\ nth_error cs j = Some c0 /\ f c0 = Ok true).
    { intros i. rewrite I. split; intros (j & c0 & Z1 & Z2); exists j, c0; split; auto; lia. }
    destruct x.
    + split; [constructor; auto; intros J; apply Q in J as (j & c0 & Z & _); lia|]. intros i. cbn [In]. rewrite Q. split.
      * intros [<-|(j & c0 & Z1 & Z2)]; [exists 0, c; rewrite Nat.add_0_r; auto|exists (S j), c0; auto].
      * intros (j & c0 & Z1 & Z2 & Z3). destruct j as [|j]; [left; lia|right]. exists j, c0. auto.
    + split; auto. intros i. rewrite Q. split.
      * intros (j & c0 & Z1 & Z2). exists (S j), c0. auto.
      * intros (j & c0 & Z1 & Z2 & Z3). destruct j as [|j]; [cbn in Z2; injection Z2 as ->; congruence|]. exists j, c0. auto.
Qed.
Lemma looks_inv : forall p c b, looks_at p c = Ok b -> b = true <-> c_done c = false /\ exists l, c_coords c = p :: l.
Proof.
  intros p c b Q. unfold looks_at in Q. destruct (c_done c); [injection Q as <-; split; [discriminate|intros [Z _]; discriminate]|]. bnd Q. injection Q as <-. unfold c_next in E. destruct (c_coords c) as [|n l]; [discriminate|]. injection E as <-.
  destruct (peqb_spec n p) as [->|N]; split; auto; [intros; eauto|discriminate|intros (_ & l' & Z); injection Z; congruence].
Qed.
Lemma stands_inv : forall p c, stands_at p c = Ok true -> c_done c = false /\ exists n l, c_coords c = n :: p :: l.
Proof.
  intros p c Q. unfold stands_at in Q. destruct (c_done c); [discriminate|]. bnd Q. injection Q as Q. unfold c_curr in E. destruct (c_coords c) as [|n [|q l]]; try discriminate. injection E as <-. apply peqb_iff in Q. subst q. eauto.
Qed.
Lemma on_edge_inv : forall a p c, on_edge a p c = Ok true -> c_done c = false /\ exists l, c_coords c = p :: a :: l.
Proof.
  intros a p c Q. unfold on_edge in Q. bnd Q. destruct x; [|discriminate]. destruct (looks_inv _ _ _ E) as [Z _]. destruct (Z eq_refl) as (D & l & Cl). bnd Q. injection Q as Q. apply peqb_iff in Q. unfold c_curr in E0. rewrite Cl in E0. destruct l as [|q l]; [discriminate|]. injection E0 as ->. subst x. eauto.
Qed.
Lemma find_inv' : forall f cs k i, find_position f k cs = Ok (Some i) -> exists c, nth_error cs (i - k) = Some c /\ k <= i /\ f c = Ok true.
Proof.
  intros f. induction cs as [|c cs IH]; intros k i Q; [discriminate|]. cbn [find_position] in Q. bnd Q. destruct x.
  - injection Q as <-. exists c. rewrite Nat.sub_diag. auto.
  - destruct (IH _ _ Q) as (c' & A & B & C). exists c'. split; [|split; auto; lia]. replace (i - k) with (S (i - S k)) by lia. exact A.
Qed.
Lemma head_of : forall c n q l, c_done c = false -> c_coords c = n :: q :: l -> chead c = [mk3 q n (c_int c)].
Proof. intros c n q l D C. unfold chead. rewrite D, C. reflexivity. Qed.
Lemma in_heads : forall cs i c t, nth_error cs i = Some c -> In t (chead c) -> In t (heads cs).
Proof. intros cs i c t Q I. apply in_flat_map. exists c. split; auto. apply (nth_error_In _ _ Q). Qed.
Lemma cedges_cons : forall w o n q l d, cedges (mkMchain w o (n :: q :: l) d) = ori w (q, n) :: cedges (mkMchain w o (q :: l) d).
Proof. reflexivity. Qed.
Lemma cedges_done : forall w o l d d' o', cedges (mkMchain w o l d) = cedges (mkMchain w o' l d'). Proof. reflexivity. Qed.
Lemma ori_inv : forall w x, ori (winding_inverse w) x = reversed (ori w x). Proof. intros [] [a b]; reflexivity. Qed.
Lemma rev_rev : forall x : pt * pt, reversed (reversed x) = x. Proof. intros [a b]. reflexivity. Qed.

Definition edge_dec : forall a b : pt * pt, {a = b} + {a <> b}.
Proof. intros [a b] [c d]. destruct (peqb a c) eqn:P; destruct (peqb b d) eqn:Q; [left; apply peqb_iff in P, Q; subst; reflexivity| | |]; right; intros Z; injection Z as -> ->; rewrite ?(proj2 (peqb_iff _ _) eq_refl) in P; rewrite ?(proj2 (peqb_iff _ _) eq_refl) in Q; congruence. Defined.
Definition one (a x : pt * pt) : nat := if edge_dec a x then 1 else 0.
Lemma cnt_cons : forall a l x, count_occ edge_dec (a :: l) x = one a x + count_occ edge_dec l x. Proof. intros a l x. unfold one. cbn. destruct (edge_dec a x); reflexivity. Qed.
Ltac pcnt x := rewrite (Permutation_count_occ edge_dec); intros x; rewrite ?count_occ_app, ?cnt_cons, ?count_occ_app.
Ltac pcnt_in H x := rewrite (Permutation_count_occ edge_dec) in H; specialize (H x); rewrite ?count_occ_app, ?cnt_cons, ?count_occ_app in H.

(** Edges up to paired diagonals. *)
Definition eqv (l X : list (pt * pt)) : Prop := exists d, Permutation l (X ++ d ++ map reversed d).
Lemma eqv_more : forall l X l' Y, eqv l X -> Permutation l' (Y ++ l) -> eqv l' (Y ++ X).
Proof. intros l X l' Y (d & P) Q. exists d. rewrite Q, P, app_assoc. reflexivity. Qed.
Lemma eqv_diag : forall l X l' u, eqv l X -> Permutation l' (u :: reversed u :: l) -> eqv l' X.
Proof.
  intros l X l' u (d & P) Q. exists (u :: d). rewrite Q, P. cbn [map app]. rewrite <- Permutation_middle. apply perm_skip. rewrite app_assoc, (app_assoc X d). apply Permutation_middle.
Qed.
Lemma eqv_perm : forall l X X', eqv l X -> Permutation X X' -> eqv l X'.
Proof. intros l X X' (d & P) Q. exists d. rewrite P, Q. reflexivity. Qed.

Section Event.
Variable E : list seg3.
Variable p : pt.
Definition okB (t : seg3) : Prop := lex_lt (tz t) p \/ (tz t = p /\ nonstart E (ta t)).
Definition st (Q : seg3 -> Prop) (L : list seg3) (X : list (pt * pt)) (cs : list mchain) : Prop :=
  paired (map sk cs) /\ longs cs /\ (exists B, Permutation (heads cs) (L ++ B) /\ bal B /\ forall t, In t B -> Q t) /\ eqv (edgs cs) X.

(** * Links *)
Definition newhead (ty : vertex_type) (prev next : pt) (limbs : option (pt * pt)) (t : seg3) : list seg3 :=
  match ty with
  | VSplit => match limbs with Some (top, bot) => [mk3 next (match tw t with Cw => bot | Ccw => top end) (tw t)] | None => [] end
  | _ => [mk3 prev next (tw t)]
  end.
Definition newedges (ty : vertex_type) (prev next : pt) (limbs : option (pt * pt)) (t : seg3) : list (pt * pt) :=
  ori (tw t) (prev, next) :: match ty with VSplit => map (fun h => ori (tw h) (ta h, tz h)) (newhead ty prev next limbs t) | _ => [] end.
Lemma merge_inv : forall ty prev next limbs cs cs' num, longs cs -> merge_chains ty prev next limbs cs = Ok (cs', num) ->
  map sk cs' = map sk cs /\ longs cs' /\ num = length (filter (fun t => peqb (tz t) prev) (heads cs)) /\
  Permutation (heads cs') (filter (fun t => negb (peqb (tz t) prev)) (heads cs) ++ flat_map (newhead ty prev next limbs) (filter (fun t => peqb (tz t) prev) (heads cs))) /\
  Permutation (edgs cs') (flat_map (newedges ty prev next limbs) (filter (fun t => peqb (tz t) prev) (heads cs)) ++ edgs cs).
Proof.
  intros ty prev next limbs. induction cs as [|c cs IH]; intros cs' num Lg Q.
  - injection Q as <- <-. repeat split; auto.
  - cbn [merge_chains] in Q. bnd Q. rename x into b. bnd Q. rename x into c'. bnd Q. destruct x as [r k]. injection Q as <- <-.
    destruct (IH r k) as (I1 & I2 & I3 & I4 & I5); auto. { intros c0 J. apply Lg. right; auto. } pose proof (looks_inv _ _ _ E0) as Lk.
    pose proof (Lg c (or_introl eq_refl)) as Lc. cbn [map heads flat_map edgs]. fold (heads cs) (heads r) (edgs cs) (edgs r). rewrite !filter_app, !flat_map_app, app_length.
    destruct b.
    + destruct (proj1 Lk eq_refl) as (D & l & Cl). specialize (Lc D). rewrite Cl in Lc. destruct l as [|q l]; [cbn in Lc; lia|]. rewrite (head_of c prev q l D Cl). cbn [filter tz flat_map app].
      assert (Pp : peqb prev prev = true) by (apply peqb_iff; reflexivity). rewrite Pp. cbn [negb length flat_map app]. rewrite app_nil_r. cbn [Nat.add].
      assert (Sc : sk c' = sk c /\ (c_done c' = false -> 2 <= length (c_coords c')) /\ chead c' = newhead ty prev next limbs (mk3 q prev (c_int c)) /\ Permutation (cedges c') (newedges ty prev next limbs (mk3 q prev (c_int c)) ++ cedges c)).
      { unfold merge_chain in E1. unfold newedges, newhead. cbn [tw].
        assert (Simp : c' = c_advance next c -> sk c' = sk c /\ (c_done c' = false -> 2 <= length (c_coords c')) /\ chead c' = [mk3 prev next (c_int c)] /\ Permutation (cedges c') ([ori (c_int c) (prev, next)] ++ cedges c)).
        { intros ->. unfold c_advance, sk, chead, cedges. cbn [c_int c_other c_done c_coords]. rewrite D, Cl. cbn [length]. split; [auto|]. split; [lia|]. split; auto. }
        destruct ty; try (injection E1 as <-; apply Simp; reflexivity).
        bnd E1. destruct x as [tp bt]. injection E1 as <-. apply expect_inv in E3. rewrite E3. unfold c_advance, sk, chead, cedges. cbn [c_int c_other c_done c_coords]. rewrite D, Cl. cbn [length map tw ta tz]. split; [auto|]. split; [lia|]. split; auto.
        cbn [redges map app]. destruct (c_int c); apply perm_swap. }
      destruct Sc as (S1 & S2 & S3 & S4). rewrite S1, I1, I3, S3. split; auto. split; [|split; [lia|split]].
      * intros c0 [<-|J]; auto.
      * rewrite I4. rewrite Permutation_app_comm, <- !app_assoc. apply Permutation_app_head. apply Permutation_app_comm.
      * rewrite S4, I5. rewrite <- !app_assoc. apply Permutation_app_head. rewrite !app_assoc. apply Permutation_app_tail. apply Permutation_app_comm.
    + injection E1 as <-. assert (N : filter (fun t => peqb (tz t) prev) (chead c) = [] /\ filter (fun t => negb (peqb (tz t) prev)) (chead c) = chead c).
      { unfold chead. destruct (c_done c) eqn:D; auto. destruct (c_coords c) as [|n [|q l]] eqn:Cl; auto. cbn [filter tz]. destruct (peqb_spec n prev) as [->|Ne]; auto. destruct Lk as [_ Lk]. discriminate Lk. eauto. }
      destruct N as [N1 N2]. rewrite N1, N2. cbn [length flat_map app Nat.add]. split; [rewrite I1; reflexivity|]. split; [|split; [auto|split]].
      * intros c0 [<-|J]; auto.
      * rewrite I4, app_assoc. reflexivity.
      * rewrite I5. rewrite !app_assoc. apply Permutation_app_tail, Permutation_app_comm.
Qed.
(** A merge vertex is joined to [p]. *)
Lemma merge_step : forall ty L X cs cur h lim a, st okB L X cs -> (forall t, In t L -> lex_le p (tz t)) -> okh E p h -> apply_link p ty (cs, cur) (LMerge h p lim) = Ok a ->
  exists w, exists B, exists cs', a = (cs', cur) /\ paired (map sk cs') /\ longs cs' /\ bal B /\ (forall t, In t B -> okB t) /\
    Permutation (heads cs') (L ++ B ++ newhead ty h p lim (mk3 h h w) ++ newhead ty h p lim (mk3 h h (winding_inverse w))) /\
    exists Y, Y = newedges ty h p lim (mk3 h h w) ++ newedges ty h p lim (mk3 h h (winding_inverse w)) /\ Permutation (edgs cs') (Y ++ edgs cs).
Proof.
  intros ty L X cs cur h lim a (Pr & Lg & (B & PB & bB & oB) & Ee) LL [Hh Hn] Q. cbn [apply_link] in Q. chk Q. bnd Q. destruct x as [cs' num]. chk Q. injection Q as <-. apply Nat.eqb_eq in E2. subst num.
  destruct (merge_inv _ _ _ _ _ _ _ Lg E1) as (M1 & M2 & M3 & M4 & M5).
  assert (FL : filter (fun t => peqb (tz t) h) L = [] /\ filter (fun t => negb (peqb (tz t) h)) L = L).
  { assert (Z : forall t, In t L -> peqb (tz t) h = false) by (intros t I; destruct (peqb_spec (tz t) h) as [Q|Q]; auto; apply LL in I; rewrite Q in I; lord). clear - Z. induction L as [|t L IH]; auto. cbn [filter]. rewrite Z by (left; auto). cbn [negb]. destruct IH as [A B]; [intros; apply Z; right; auto|]. rewrite A, B. auto. }
  pose proof (perm_filter (fun t => peqb (tz t) h) _ _ PB) as F1. pose proof (perm_filter (fun t => negb (peqb (tz t) h)) _ _ PB) as F2. rewrite filter_app, (proj1 FL) in F1. rewrite filter_app, (proj2 FL) in F2. cbn [app] in F1.
  destruct (two_opp (filter (fun t => peqb (tz t) h) B)) as (e1 & e2 & Q & W); [rewrite <- (Permutation_length F1); auto|apply bal_at; auto|]. rewrite Q in F1.
  assert (Nh : forall t, newhead ty h p lim (mk3 h h (tw t)) = newhead ty h p lim t) by reflexivity.
  assert (Ne : forall t, newedges ty h p lim (mk3 h h (tw t)) = newedges ty h p lim t) by reflexivity.
  exists (tw e1), (filter (fun t => negb (peqb (tz t) h)) B), cs'. split; auto. split; [rewrite M1; auto|]. split; auto. split; [apply bal_out; auto|]. split; [intros t I; apply oB; apply filter_In in I; tauto|]. split.
  - rewrite M4. rewrite (flat_perm _ _ _ F1), F2. cbn [flat_map]. rewrite app_nil_r, <- W, !Nh, <- app_assoc. reflexivity.
  - eexists. split; [reflexivity|]. rewrite M5, (flat_perm _ _ _ F1). cbn [flat_map]. rewrite app_nil_r, <- W, !Ne. reflexivity.
Qed.
Lemma merge_plain : forall ty L X cs cur h lim a, ty <> VSplit -> st okB L X cs -> (forall t, In t L -> lex_le p (tz t)) -> okh E p h -> apply_link p ty (cs, cur) (LMerge h p lim) = Ok a ->
  exists cs', a = (cs', cur) /\ st okB L X cs'.
Proof.
  intros ty L X cs cur h lim a Ty S LL Oh Q. destruct (merge_step ty L X cs cur h lim a S LL Oh Q) as (w & B & cs' & -> & Pr & Lg & bB & oB & PH & Y & -> & PE). exists cs'. split; auto.
  assert (Nh : forall t, newhead ty h p lim t = [mk3 h p (tw t)]) by (intros t; destruct ty; auto; congruence). assert (Ne : forall t, newedges ty h p lim t = [ori (tw t) (h, p)]) by (intros t; destruct ty; auto; congruence).
  rewrite !Nh in PH. rewrite !Ne in PE. cbn [tw app] in PH, PE. rewrite ori_inv in PE. split; auto. split; auto. split.
  - exists (B ++ [mk3 h p w; mk3 h p (winding_inverse w)]). split; [exact PH|]. split.
    + apply bal_app; auto. apply bal_pair; auto. intros r. reflexivity.
    + intros t I. apply in_app_or in I as [I|I]; auto. destruct Oh as [_ On]. destruct I as [<-|[<-|[]]]; right; auto.
  - destruct S as (_ & _ & _ & Se). apply (eqv_diag _ _ _ _ Se PE).
Qed.
Lemma merges_fold : forall ty L X ms cs cur rest a, ty <> VSplit -> (forall t, In t L -> lex_le p (tz t)) -> merges E p ms -> st okB L X cs -> fold_res (apply_link p ty) (cs, cur) (ms ++ rest) = Ok a ->
  exists cs', st okB L X cs' /\ fold_res (apply_link p ty) (cs', cur) rest = Ok a.
Proof.
  intros ty L X. induction ms as [|m ms IH]; intros cs cur rest a Ty LL M S Q; [exists cs; auto|]. cbn [app fold_res] in Q. bnd Q. destruct (M m (or_introl eq_refl)) as (h & lim & -> & Oh).
  destruct (merge_plain _ _ _ _ _ _ _ _ Ty S LL Oh E0) as (cs' & -> & S'). apply (IH cs' cur rest a); auto. intros y I. apply M. right; auto.
Qed.

Lemma eta3 : forall t w, ta t = p -> tw t = w -> t = mk3 p (tz t) w. Proof. intros [a z v] w Q1 Q2. cbn in *. subst. reflexivity. Qed.
Lemma start_step : forall L X cs cur t1 t2 a, st okB L X cs -> ta t1 = p -> ta t2 = p -> tw t1 = Cw -> tw t2 = Ccw ->
  apply_link p VStart (cs, cur) (LStart p (tz t1) (tz t2)) = Ok a -> exists cs', a = (cs', cur) /\ st okB ([t1; t2] ++ L) (map dir [t1; t2] ++ X) cs'.
Proof.
  intros L X cs cur t1 t2 a (Pr & Lg & (B & PB & bB & oB) & Ee) A1 A2 W1 W2 Q. cbn [apply_link] in Q. chk Q. bnd Q. bnd Q. injection Q as <-. unfold mchain_new in E1, E2. cbn [length Nat.ltb Nat.leb check bind rev app] in E1, E2. injection E1 as <-. injection E2 as <-.
  eexists. split; [reflexivity|]. rewrite (eta3 t1 Cw A1 W1), (eta3 t2 Ccw A2 W2). cbn [tz]. split; [|split; [|split]].
  - rewrite map_app. cbn [map sk c_int c_other c_done]. rewrite <- (map_length sk cs). apply (paired_new _ Cw). exact Pr.
  - intros c I. apply in_app_or in I as [I|[<-|[<-|[]]]]; auto.
  - exists B. split; auto. unfold heads. rewrite flat_map_app. cbn [flat_map chead c_done c_coords c_int app]. fold (heads cs). rewrite Permutation_app_comm. cbn [app]. rewrite PB. reflexivity.
  - apply (eqv_more _ _ _ _ Ee). unfold edgs. rewrite flat_map_app. rewrite Permutation_app_comm. apply Permutation_app_tail. cbn [flat_map app]. unfold cedges, dir. cbn [c_coords redges c_int map tw ta tz]. reflexivity.
Qed.
Lemma split_inv : forall prev next cs i, split_position prev next cs = Ok i -> exists c n l, nth_error cs i = Some c /\ c_done c = false /\ c_coords c = n :: prev :: l.
Proof.
  intros prev next cs i Q. unfold split_position in Q. bnd Q. destruct (positions_inv _ _ _ _ E0) as [_ I].
  assert (G : In i x -> exists c n l, nth_error cs i = Some c /\ c_done c = false /\ c_coords c = n :: prev :: l).
  { intros J. apply I in J as (j & c & -> & N & S). apply stands_inv in S as (D & n & l & Cl). exists c, n, l. auto. }
  apply G. destruct x as [|u [|v [|? ?]]]; try discriminate.
  - injection Q as ->. left; auto.
  - bnd Q. bnd Q. bnd Q. destruct x1 as [ccw cw]. bnd Q. bnd Q. injection Q as <-.
    assert (Z : (ccw = u /\ cw = v) \/ (ccw = v /\ cw = u)).
    { destruct (winding_eqb (c_int x) Ccw); [injection E3 as <- <-; auto|]. chk E3. injection E3 as <- <-. auto. }
    destruct (orient2d next prev x2), Z as [[-> ->]|[-> ->]]; cbn; auto.
Qed.
Lemma split_step : forall L X cs cur h t1 t2 a, st okB L X cs -> ta t1 = p -> ta t2 = p -> tw t1 = Ccw -> tw t2 = Cw ->
  apply_link p VSplit (cs, cur) (LSplit h p (tz t1) (tz t2)) = Ok a -> exists cs', a = (cs', cur) /\ st okB ([t1; t2] ++ L) (map dir [t1; t2] ++ X) cs'.
Proof.
  intros L X cs cur h t1 t2 a (Pr & Lg & (B & PB & bB & oB) & Ee) A1 A2 W1 W2 Q. cbn [apply_link] in Q. chk Q. bnd Q. rename x into i. apply split_inv in E1 as (c & n & l & N & D & Cl). bnd Q. unfold mchain_at in E1. rewrite N in E1. injection E1 as <-.
  bnd Q. destruct x as [c1 old]. unfold c_pop in E1. rewrite Cl in E1. injection E1 as <- <-.
  destruct (match c_int c with Cw => (tz t2, tz t1) | Ccw => (tz t1, tz t2) end) as [limb other] eqn:Lo. bnd Q. bnd Q. injection Q as <-. unfold mchain_new in E1, E2. cbn [length Nat.ltb Nat.leb check bind rev app] in E1, E2. injection E1 as <-. injection E2 as <-.
  unfold c_advance. cbn [c_int c_other c_coords c_done].
  assert (T : (c_int c = Cw /\ mk3 p limb (c_int c) = t2 /\ mk3 p other (winding_inverse (c_int c)) = t1) \/ (c_int c = Ccw /\ mk3 p limb (c_int c) = t1 /\ mk3 p other (winding_inverse (c_int c)) = t2)).
  { destruct t1 as [a1 z1 w1], t2 as [a2 z2 w2]. cbn in *. subst. destruct (c_int c); injection Lo as <- <-; auto. }
  set (c' := mkMchain (c_int c) (c_other c) (limb :: p :: h :: l) (c_done c)). set (d1 := mkMchain (c_int c) (S (length (list_set i c' cs))) [n; h] false). set (d2 := mkMchain (winding_inverse (c_int c)) (length (list_set i c' cs)) [other; p; h] false).
  eexists. split; [reflexivity|]. 
  assert (Hh : Permutation (heads (list_set i c' cs ++ [d1; d2])) (mk3 p limb (c_int c) :: mk3 p other (winding_inverse (c_int c)) :: heads cs)).
  { unfold heads. rewrite flat_map_app. pose proof (exch chead cs i c c' N) as X1. rewrite (head_of c n h l D Cl) in X1. cbn [flat_map]. unfold chead at 2 3. cbn [d1 d2 c_done c_coords c_int app]. fold (heads cs) in X1. fold (heads (list_set i c' cs)) in X1 |- *. unfold chead in X1. cbn [c' c_done c_coords c_int] in X1. rewrite D in X1. cbn [app] in X1.
    rewrite Permutation_app_comm. cbn [app]. rewrite (perm_swap (mk3 p other _)). rewrite X1. apply perm_swap. }
  assert (He : Permutation (edgs (list_set i c' cs ++ [d1; d2])) (ori (c_int c) (h, p) :: reversed (ori (c_int c) (h, p)) :: dir (mk3 p limb (c_int c)) :: dir (mk3 p other (winding_inverse (c_int c))) :: edgs cs)).
  { unfold edgs. rewrite flat_map_app. pose proof (exch cedges cs i c c' N) as X1. cbn [flat_map]. fold (edgs cs) in X1. fold (edgs cs). fold (edgs (list_set i c' cs)) in X1 |- *. set (E1 := edgs cs) in *. unfold dir. cbn [tw ta tz].
    unfold cedges at 1 in X1. rewrite Cl, redges_cons in X1. unfold cedges in X1. cbn [c' c_int c_coords] in X1. rewrite !redges_cons in X1. cbn [map] in X1. unfold cedges. cbn [d1 d2 c_int c_coords redges map app]. rewrite <- ori_inv.
    set (m := map (ori (c_int c)) (redges (h :: l))) in *. set (S0 := edgs (list_set i c' cs)) in *. cbn [app] in X1.
    pcnt x. pcnt_in X1 x. cbn [count_occ]. lia. }
  split; [|split; [|split]].
  - rewrite map_app, map_set. rewrite set_id by (rewrite nth_error_map, N; reflexivity). change (map sk [d1; d2]) with [(c_int c, S (length (list_set i c' cs)), false); (winding_inverse (c_int c), length (list_set i c' cs), false)]. rewrite list_set_length, <- (map_length sk cs). apply paired_new. exact Pr.
  - intros x I. apply in_app_or in I as [I|[<-|[<-|[]]]]; cbn; auto. apply in_set in I as [->|I]; auto. cbn. lia.
  - exists B. split; auto. rewrite Hh, PB. destruct T as [(_ & -> & ->)|(_ & -> & ->)]; [apply perm_swap|reflexivity].
  - destruct Ee as (dd & Pd). exists (ori (c_int c) (h, p) :: dd). rewrite He, Pd. cbn [map app].
    assert (Z : Permutation (dir (mk3 p limb (c_int c)) :: dir (mk3 p other (winding_inverse (c_int c))) :: X) (dir t1 :: dir t2 :: X)) by (destruct T as [(_ & -> & ->)|(_ & -> & ->)]; [apply perm_swap|reflexivity]).
    transitivity (ori (c_int c) (h, p) :: reversed (ori (c_int c) (h, p)) :: ((dir (mk3 p limb (c_int c)) :: dir (mk3 p other (winding_inverse (c_int c))) :: X) ++ dd ++ map reversed dd)); [reflexivity|]. rewrite Z. cbn [app].
    change (Permutation (ori (c_int c) (h, p) :: reversed (ori (c_int c) (h, p)) :: ((dir t1 :: dir t2 :: X) ++ dd ++ map reversed dd)) ((dir t1 :: dir t2 :: X) ++ ori (c_int c) (h, p) :: dd ++ reversed (ori (c_int c) (h, p)) :: map reversed dd)).
    rewrite <- Permutation_middle. apply perm_skip. rewrite !app_assoc. apply Permutation_middle.
Qed.
Lemma split_merge_step : forall L X cs cur h t1 t2 a, st okB L X cs -> (forall t, In t L -> lex_le p (tz t)) -> okh E p h -> ta t1 = p -> ta t2 = p -> tw t1 = Ccw -> tw t2 = Cw ->
  apply_link p VSplit (cs, cur) (LMerge h p (Some (tz t1, tz t2))) = Ok a -> exists cs', a = (cs', cur) /\ st okB ([t1; t2] ++ L) (map dir [t1; t2] ++ X) cs'.
Proof.
  intros L X cs cur h t1 t2 a S LL Oh A1 A2 W1 W2 Q. destruct (merge_step VSplit L X cs cur h _ a S LL Oh Q) as (w & B & cs' & -> & Pr & Lg & bB & oB & PH & Y & -> & PE). exists cs'. split; auto. split; auto. split; auto. cbn [newhead tw] in PH.
  assert (Z1 : mk3 p (tz t1) Ccw = t1) by (symmetry; apply eta3; auto). assert (Z2 : mk3 p (tz t2) Cw = t2) by (symmetry; apply eta3; auto).
  assert (N : forall w, newedges VSplit h p (Some (tz t1, tz t2)) (mk3 h h w) = [ori w (h, p); dir (match w with Cw => t2 | Ccw => t1 end)]).
  { intros []; unfold newedges, newhead, dir; cbn [tw map]; rewrite ?Z1, ?Z2, ?W1, ?W2; reflexivity. }
  rewrite !N in PE. cbn [app] in PE. rewrite ori_inv in PE. destruct S as (_ & _ & _ & Se). split.
  - exists B. split; auto. rewrite PH. rewrite (Permutation_app_comm B), app_assoc. apply Permutation_app_tail. rewrite Permutation_app_comm. apply Permutation_app_tail. destruct w; cbn [winding_inverse app]; rewrite Z1, Z2; [apply perm_swap|reflexivity].
  - apply (eqv_diag (map dir [t1; t2] ++ edgs cs) _ _ (ori w (h, p))).
    + apply (eqv_more _ _ _ _ Se). reflexivity.
    + rewrite PE. apply perm_skip. rewrite perm_swap. apply perm_skip. destruct w; cbn [winding_inverse map app]; [apply perm_swap|reflexivity].
Qed.
Lemma cont_step : forall K X cs cur t1 t2 i a, st okB (t1 :: K) X cs -> (forall t, In t K -> tz t <> p) -> In t1 E -> tz t1 = p -> ta t2 = p -> tw t1 = tw t2 ->
  apply_link p VContinue (cs, cur) (LContinue (ta t1) p (tz t2) i) = Ok a ->
  exists cs' idx c l, a = (cs', Some idx) /\ st okB (t2 :: K) (dir t2 :: X) cs' /\ nth_error cs' idx = Some c /\ c_done c = false /\ c_int c = tw t2 /\ c_coords c = tz t2 :: p :: l.
Proof.
  intros K X cs cur t1 t2 i a (Pr & Lg & (B & PB & bB & oB) & Ee) KK I1 Z1 A2 W Q. cbn [apply_link] in Q. chk Q. bnd Q. bnd Q. rename x0 into idx. apply expect_inv in E2. subst x. apply find_inv' in E1 as (c & N & _ & On). rewrite Nat.sub_0_r in N. apply on_edge_inv in On as (D & l & Cl). bnd Q. unfold mchain_at in E1. rewrite N in E1. injection E1 as <-. injection Q as <-.
  assert (Wc : c_int c = tw t1).
  { assert (J : In (mk3 (ta t1) p (c_int c)) (heads cs)) by (apply (in_heads cs idx c); auto; rewrite (head_of c p (ta t1) l D Cl); left; auto). apply (Permutation_in _ PB) in J. destruct J as [J|J]; [rewrite J; reflexivity|]. apply in_app_or in J as [J|J].
    - exfalso. apply (KK _ J). reflexivity.
    - exfalso. destruct (oB _ J) as [J'|[_ J']]; cbn in J'; [lord|]. apply (J' t1 I1). reflexivity. }
  exists (list_set idx (c_advance (tz t2) c) cs), idx, (c_advance (tz t2) c), (ta t1 :: l). split; auto.
  assert (Li : idx < length cs) by (apply nth_error_Some; congruence).
  split; [|split; [apply list_set_same; auto|]; split; [exact D|]; split; [cbn [c_advance c_int]; congruence|]; cbn [c_advance c_coords]; rewrite Cl; reflexivity].
  split; [|split; [|split]].
  - rewrite map_set, set_id; auto. rewrite nth_error_map, N. reflexivity.
  - intros x I. apply in_set in I as [->|I]; auto. intros _. cbn [c_advance c_coords]. rewrite Cl. cbn. lia.
  - exists B. split; auto. pose proof (exch chead cs idx c (c_advance (tz t2) c) N) as X1. fold (heads cs) in X1. rewrite (head_of c p (ta t1) l D Cl) in X1. rewrite (head_of (c_advance (tz t2) c) (tz t2) p (ta t1 :: l)) in X1; [|exact D|cbn [c_advance c_coords]; rewrite Cl; reflexivity]. cbn [c_advance c_int] in X1. rewrite PB in X1.
    assert (Q1 : mk3 (ta t1) p (c_int c) = t1) by (rewrite Wc, <- Z1; destruct t1; reflexivity). assert (Q2 : mk3 p (tz t2) (c_int c) = t2) by (symmetry; apply eta3; congruence). rewrite Q1, Q2 in X1. cbn [app] in *. apply (Permutation_cons_inv (a := t1)). rewrite X1. apply perm_swap.
  - apply (eqv_more _ _ _ [dir t2] Ee). pose proof (exch cedges cs idx c (c_advance (tz t2) c) N) as X1. fold (edgs cs) in X1. apply (Permutation_app_inv_l (cedges c)). rewrite X1. unfold cedges at 1. cbn [c_advance c_int c_coords]. rewrite Cl, redges_cons. cbn [map]. rewrite <- Cl. fold (cedges c).
    assert (Q2 : ori (c_int c) (p, tz t2) = dir t2) by (unfold dir; rewrite A2; congruence). rewrite Q2. cbn [app]. apply Permutation_middle.
Qed.

(** * After the links *)
Definition okP (t : seg3) : Prop := lex_le (tz t) p.
Lemma finish_inv : forall i j cs cs2, paired (map sk cs) -> (exists c, nth_error cs i = Some c /\ c_other c = j) -> finish_both i j cs = Ok cs2 ->
  exists c1 c2, nth_error cs i = Some c1 /\ nth_error cs j = Some c2 /\ i <> j /\ c_done c1 = false /\ c_done c2 = false /\ c_int c2 = winding_inverse (c_int c1) /\
    cs2 = list_set j (mkMchain (c_int c2) (c_other c2) (c_coords c2) true) (list_set i (mkMchain (c_int c1) (c_other c1) (c_coords c1) true) cs) /\ paired (map sk cs2).
Proof.
  intros i j cs cs2 Pr (c & N & O) Q. unfold finish_both in Q. bnd Q. rename x into c1. apply expect_inv in E0. rewrite N in E0. injection E0 as <-. bnd Q. unfold c_finish in E0. chk E0. injection E0 as <-. bnd Q. rename x into c2. apply expect_inv in E0. bnd Q. unfold c_finish in E2. chk E2. injection E2 as <-. bnd Q. bnd Q. bnd Q. injection Q as <-.
  destruct (paired_at cs i c Pr N) as (c' & N' & W & O' & D). rewrite O in N'. assert (Ne : j <> i) by (rewrite <- O; apply (paired_neq (map sk cs) i (c_int c) _ (c_done c) Pr); rewrite nth_error_map, N; reflexivity).
  rewrite list_set_other in E0 by auto. rewrite N' in E0. injection E0 as <-. apply negb_true_iff in E1. apply negb_true_iff in E3. exists c, c'. repeat split; auto. rewrite !map_set. cbn [sk c_int c_other c_done]. unfold sk at 1 2. cbn [c_int c_other c_done]. rewrite W, O', O. apply (paired_done _ i (c_int c) j (c_done c) Pr). rewrite nth_error_map, N. unfold sk. cbn. congruence.
Qed.
Lemma done_head : forall w o l, chead (mkMchain w o l true) = []. Proof. reflexivity. Qed.
Lemma finish_eff : forall i j cs c1 c2, nth_error cs i = Some c1 -> nth_error cs j = Some c2 -> i <> j ->
  let cs2 := list_set j (mkMchain (c_int c2) (c_other c2) (c_coords c2) true) (list_set i (mkMchain (c_int c1) (c_other c1) (c_coords c1) true) cs) in
  Permutation (chead c1 ++ chead c2 ++ heads cs2) (heads cs) /\ Permutation (edgs cs2) (edgs cs) /\ (longs cs -> longs cs2).
Proof.
  intros i j cs c1 c2 N1 N2 Ne cs2. set (d1 := mkMchain (c_int c1) (c_other c1) (c_coords c1) true) in *. set (d2 := mkMchain (c_int c2) (c_other c2) (c_coords c2) true) in *.
  assert (N2' : nth_error (list_set i d1 cs) j = Some c2) by (rewrite list_set_other by auto; auto). split; [|split].
  - pose proof (exch chead cs i c1 d1 N1) as X1. pose proof (exch chead _ j c2 d2 N2') as X2. change (chead d1) with (@nil seg3) in X1. change (chead d2) with (@nil seg3) in X2. cbn [app] in X1, X2. fold cs2 in X2. unfold heads. rewrite X2. exact X1.
  - pose proof (exch cedges cs i c1 d1 N1) as X1. pose proof (exch cedges _ j c2 d2 N2') as X2. change (cedges d1) with (cedges c1) in X1. change (cedges d2) with (cedges c2) in X2. apply Permutation_app_inv_l in X1. apply Permutation_app_inv_l in X2. unfold edgs. fold cs2 in X2. rewrite X2. exact X1.
  - intros Lg c I. unfold cs2 in I. apply in_set in I as [->|I]; [discriminate|]. apply in_set in I as [->|I]; [discriminate|]. auto.
Qed.
Lemma close_step : forall L X cs idx cs', st okP L X cs -> (forall t, In t L -> lex_lt p (tz t)) -> (forall c, nth_error cs idx = Some c -> c_done c = true \/ exists l, c_coords c = p :: l) -> close_look cs idx = Ok cs' ->
  st okP L X cs' /\ forall k c, nth_error cs' k = Some c -> exists c0, nth_error cs k = Some c0 /\ c_coords c = c_coords c0 /\ (c_done c0 = true -> c_done c = true).
Proof.
  intros L X cs idx cs' S LL Lk Q. pose proof S as (Pr & Lg & (B & PB & bB & oB) & Ee). unfold close_look in Q. bnd Q. rename x into ch1. apply expect_inv in E0. bnd Q. rename x into ch2. apply expect_inv in E1. chk Q.
  assert (Triv : Ok cs = Ok cs' -> st okP L X cs' /\ forall k c, nth_error cs' k = Some c -> exists c0, nth_error cs k = Some c0 /\ c_coords c = c_coords c0 /\ (c_done c0 = true -> c_done c = true)).
  { intros Z. injection Z as <-. split; auto. intros k c N. exists c. auto. }
  destruct (c_done ch1) eqn:D1; auto. bnd Q. bnd Q. destruct (peqb x x0) eqn:Px; auto. apply peqb_iff in Px. subst x0.
  destruct (finish_inv idx (c_other ch1) cs cs' Pr) as (c1 & c2 & N1 & N2 & Ne & F1 & F2 & W & -> & Pr'); eauto. rewrite E0 in N1. injection N1 as <-. rewrite E1 in N2. injection N2 as <-.
  destruct (finish_eff idx (c_other ch1) cs ch1 ch2 E0 E1 Ne) as (H1 & H2 & H3). set (cs2 := list_set _ _ _) in *. split.
  - destruct (Lk _ E0) as [Z|(l1 & C1)]; [congruence|]. pose proof (Lg ch1 (nth_error_In _ _ E0) D1) as G1. pose proof (Lg ch2 (nth_error_In _ _ E1) F2) as G2.
    unfold c_next in E3, E4. rewrite C1 in E3. injection E3 as <-. destruct (c_coords ch2) as [|n2 l2] eqn:C2; [discriminate|]. injection E4 as ->.
    destruct l1 as [|q1 l1]; [rewrite C1 in G1; cbn in G1; lia|]. destruct l2 as [|q2 l2]; [cbn in G2; lia|]. rewrite (head_of ch1 p q1 l1 D1 C1), (head_of ch2 p q2 l2 F2 C2) in H1. cbn [app] in H1. rewrite PB in H1.
    destruct (take_two _ _ _ _ _ p H1 LL) as (B' & PB' & bB' & iB'); auto. split; auto. split; auto. split; [exists B'; auto|]. destruct Ee as (d & Pd). exists d. rewrite H2. exact Pd.
  - intros k c N. unfold cs2 in N. assert (Lj : c_other ch1 < length cs) by (apply nth_error_Some; congruence). assert (Li : idx < length cs) by (apply nth_error_Some; congruence).
    destruct (Nat.eq_dec k (c_other ch1)) as [->|Nk]; [rewrite list_set_same in N by (rewrite list_set_length; auto); injection N as <-; exists ch2; auto|]. rewrite list_set_other in N by auto.
    destruct (Nat.eq_dec k idx) as [->|Mk]; [rewrite list_set_same in N by auto; injection N as <-; exists ch1; auto|]. rewrite list_set_other in N by auto. exists c. auto.
Qed.
Lemma close_fold : forall L X looks cs cs', (forall t, In t L -> lex_lt p (tz t)) -> st okP L X cs -> (forall i c, In i looks -> nth_error cs i = Some c -> c_done c = true \/ exists l, c_coords c = p :: l) ->
  fold_res close_look cs looks = Ok cs' -> st okP L X cs'.
Proof.
  intros L X. induction looks as [|i looks IH]; intros cs cs' LL S Lk Q; [injection Q as <-; exact S|]. cbn [fold_res] in Q. bnd Q. destruct (close_step L X cs i x S LL) as [S' F]; auto. { intros c. apply Lk. left; auto. }
  apply (IH x cs'); auto. intros k c I N. destruct (F k c N) as (c0 & N0 & Cc & Dc). destruct (Lk k c0 (or_intror I) N0) as [Z|(l & Z)]; auto. right. exists l. congruence.
Qed.
Lemma reduce_none : forall L X cs cs', (forall t, In t L -> lex_lt p (tz t)) -> st okP L X cs -> reduce_point p cs None = Ok cs' -> st okP L X cs'.
Proof.
  intros L X cs cs' LL S Q. unfold reduce_point in Q. bnd Q. chk Q. destruct (positions_inv _ _ _ _ E0) as [_ I].
  assert (Q' : fold_res close_look cs x = Ok cs') by (destruct x as [|? [|? ?]]; auto). apply (close_fold L X x cs cs'); auto.
  intros i c J N. apply I in J as (j & c' & -> & N' & Lk). cbn [Nat.add] in N. rewrite N in N'. injection N' as <-. apply looks_inv in Lk. destruct (proj1 Lk eq_refl) as [_ Z]. auto.
Qed.
Lemma heads_count : forall cs i c, nth_error cs i = Some c -> Permutation (heads cs) (chead c ++ heads (list_set i (mkMchain (c_int c) (c_other c) (c_coords c) true) cs)).
Proof. intros cs i c N. pose proof (exch chead cs i c (mkMchain (c_int c) (c_other c) (c_coords c) true) N) as X1. rewrite done_head in X1. symmetry. exact X1. Qed.
Lemma look_count : forall cs k r, longs cs -> positions (looks_at p) k cs = Ok r -> length r = nb (fun t => peqb (tz t) p) (heads cs).
Proof.
  induction cs as [|c cs IH]; intros k r Lg Q; [injection Q as <-; reflexivity|]. cbn [positions] in Q. bnd Q. bnd Q. injection Q as <-. cbn [heads flat_map]. fold (heads cs). rewrite nb_app, <- (IH (S k) x0); auto; [|intros c0 I; apply Lg; right; auto].
  pose proof (looks_inv _ _ _ E0) as Lk. assert (Z : nb (fun t => peqb (tz t) p) (chead c) = bn x).
  { unfold chead. destruct (c_done c) eqn:D; [destruct x; auto; destruct (proj1 Lk eq_refl); discriminate|]. pose proof (Lg c (or_introl eq_refl) D) as G. destruct (c_coords c) as [|n [|q l]] eqn:Cl; try (cbn in G; lia). rewrite nb_cons, nb_nil. cbn [tz].
    destruct (peqb_spec n p) as [->|Nn], x; auto; [destruct Lk as [_ Lk]; discriminate Lk; eauto|]. destruct (proj1 Lk eq_refl) as (_ & l' & Z). injection Z. congruence. }
  rewrite Z. destruct x; reflexivity.
Qed.
Lemma reduce_some : forall L X cs cs' cur cc z l, (forall t, In t L -> lex_lt p (tz t)) -> st okP L X cs -> nth_error cs cur = Some cc -> c_done cc = false -> c_coords cc = z :: p :: l -> lex_lt p z ->
  reduce_point p cs (Some cur) = Ok cs' -> st okP L X cs'.
Proof.
  intros L X cs cs' cur cc z l LL (Pr & Lg & (B & PB & bB & oB) & Ee) Nc Dc Cc Lz Q. unfold reduce_point in Q. bnd Q. rename x into looks. chk Q. destruct (positions_inv _ _ _ _ E0) as [Nd I]. pose proof (look_count _ _ _ Lg E0) as Cn.
  destruct looks as [|l0 [|l1 [|? ?]]]; [injection Q as <-; split; auto; split; auto; split; [exists B; auto|auto]|discriminate| |discriminate]. cbn [check bind] in Q.
  bnd Q. rename x into c0. apply expect_inv in E2. bnd Q. rename x into c1. apply expect_inv in E3. bnd Q. destruct x as [pr ot].
  assert (Lk : forall i c, i = l0 \/ i = l1 -> nth_error cs i = Some c -> c_done c = false /\ exists q m, c_coords c = p :: q :: m).
  { intros i c J N. assert (J' : In i [l0; l1]) by (cbn; destruct J; auto). apply I in J' as (j & c' & -> & N' & Z). cbn [Nat.add] in N. rewrite N in N'. injection N' as <-. apply looks_inv in Z. destruct (proj1 Z eq_refl) as [Z1 (m & Z2)]. split; auto. pose proof (Lg c (nth_error_In _ _ N) Z1) as G. rewrite Z2 in *. destruct m as [|q m]; [cbn in G; lia|eauto]. }
  assert (Po : (pr = l0 /\ ot = l1) \/ (pr = l1 /\ ot = l0)).
  { destruct (c_other c0 =? cur); [injection E4 as <- <-; auto|]. destruct (c_other c1 =? cur); [injection E4 as <- <-; auto|discriminate]. }
  assert (Ne01 : l0 <> l1) by (inversion Nd as [|? ? Z _]; subst; intros ->; apply Z; left; auto).
  assert (Hp : exists cp, nth_error cs pr = Some cp /\ c_other cp = cur).
  { destruct (c_other c0 =? cur) eqn:Z; [injection E4 as <- <-; apply Nat.eqb_eq in Z; eauto|]. destruct (c_other c1 =? cur) eqn:Z'; [injection E4 as <- <-; apply Nat.eqb_eq in Z'; eauto|discriminate]. }
  destruct Hp as (cp & Np & Op). assert (No : exists co, nth_error cs ot = Some co) by (destruct Po as [[_ ->]|[_ ->]]; eauto). destruct No as (co & No).
  destruct (Lk pr cp) as (Dp & q1 & m1 & C1); [destruct Po as [[-> _]|[-> _]]; auto|auto|]. destruct (Lk ot co) as (Do & q2 & m2 & C2); [destruct Po as [[_ ->]|[_ ->]]; auto|auto|].
  assert (Npo : pr <> ot) by (destruct Po as [[-> ->]|[-> ->]]; auto).
  assert (Ncp : cur <> pr) by (intros ->; rewrite Nc in Np; injection Np as <-; rewrite Cc in C1; injection C1 as -> _; lord).
  assert (Nco : cur <> ot) by (intros ->; rewrite Nc in No; injection No as <-; rewrite Cc in C2; injection C2 as -> _; lord).
  bnd Q. apply expect_inv in E5. rewrite Nc in E5. injection E5 as <-. bnd Q. destruct x as [cc' nn]. unfold c_pop in E5. rewrite Cc in E5. injection E5 as <- <-. set (cc' := mkMchain (c_int cc) (c_other cc) (p :: l) (c_done cc)) in *. set (cs1 := list_set cur cc' cs) in *.
  bnd Q. bnd Q. bnd Q. chk Q. bnd Q. rename x2 into cs2. rename E9 into Fi. bnd Q. rename x2 into co'. apply expect_inv in E9. injection Q as <-.
  (* the pairing *)
  destruct (paired_at cs pr cp Pr Np) as (cc0 & Z1 & Wp & Oc & _). rewrite Op in Z1. rewrite Nc in Z1. injection Z1 as <-.
  assert (Pr1 : paired (map sk cs1)) by (unfold cs1; rewrite map_set, set_id; auto; rewrite nth_error_map, Nc; reflexivity).
  assert (Lc : cur < length cs) by (apply nth_error_Some; congruence).
  assert (N1c : nth_error cs1 cur = Some cc') by (apply list_set_same; auto). assert (N1p : nth_error cs1 pr = Some cp) by (unfold cs1; rewrite list_set_other by auto; auto). assert (N1o : nth_error cs1 ot = Some co) by (unfold cs1; rewrite list_set_other by auto; auto).
  destruct (finish_inv cur pr cs1 cs2 Pr1) as (x1' & x2' & N1 & N2 & _ & _ & _ & _ & -> & Pr2); auto. { exists cc'. auto. }
  rewrite N1c in N1. injection N1 as <-. rewrite N1p in N2. injection N2 as <-.
  destruct (finish_eff cur pr cs1 cc' cp N1c N1p Ncp) as (H1 & H2 & H3). set (cs2 := list_set pr _ _) in *.
  assert (N2o : nth_error cs2 ot = Some co) by (unfold cs2; rewrite !list_set_other by auto; auto). rewrite N2o in E9. injection E9 as <-.
  (* the heads *)
  pose proof (exch chead cs cur cc cc' Nc) as X1. fold cs1 in X1. fold (heads cs1) (heads cs) in X1. rewrite (head_of cc z p l Dc Cc) in X1.
  pose proof (exch chead cs2 ot co (c_advance z co) N2o) as X2. fold (heads cs2) in X2. fold (heads (list_set ot (c_advance z co) cs2)) in X2. rewrite (head_of co p q2 m2 Do C2) in X2. rewrite (head_of (c_advance z co) z p (q2 :: m2)) in X2; [|exact Do|cbn [c_advance c_coords]; rewrite C2; reflexivity]. cbn [c_advance c_int] in X2.
  rewrite (head_of cp p q1 m1 Dp C1) in H1.
  set (k1 := mk3 q1 p (c_int cp)) in *. set (k2 := mk3 q2 p (c_int co)) in *. set (kc := mk3 p z (c_int cc)) in *. cbn [app] in X1, X2, H1.
  assert (X3 : Permutation (kc :: heads cs1) (chead cc' ++ heads cs)) by exact X1.
  assert (X4 : Permutation (kc :: k1 :: heads cs2) (heads cs)).
  { apply (Permutation_app_inv_l (chead cc')). rewrite <- X3, <- H1. rewrite <- Permutation_middle. apply perm_skip. reflexivity. }
  assert (Hk : exists R, Permutation (heads cs2) (k2 :: R)).
  { assert (J : In k2 (heads cs2)) by (apply (in_heads cs2 ot co); auto; rewrite (head_of co p q2 m2 Do C2); left; auto). apply in_split in J as (R1 & R2 & ->). exists (R1 ++ R2). symmetry. apply Permutation_middle. }
  destruct Hk as (R & HR).
  assert (Zc : peqb z p = false) by (destruct (peqb_spec z p) as [->|]; auto; lord).
  assert (Pp : peqb p p = true) by (apply peqb_iff; reflexivity).
  assert (R0 : nb (fun t => peqb (tz t) p) R = 0).
  { rewrite <- (nb_perm _ _ _ X4), !nb_cons, (nb_perm _ _ _ HR), nb_cons in Cn. cbn [kc k1 k2 tz] in Cn. rewrite Zc, Pp in Cn. cbn [bn length] in Cn. lia. }
  assert (W2 : c_int co = c_int cc).
  { assert (FB : nb (fun t => peqb (tz t) p && is_cw (tw t)) (heads cs) = nb (fun t => peqb (tz t) p && negb (is_cw (tw t))) (heads cs)).
    { rewrite !(nb_perm _ _ _ PB), !nb_app, (bB p). assert (Z : forall f : seg3 -> bool, nb (fun t => peqb (tz t) p && f t) L = 0) by (intros f; apply nb_none; intros t J; destruct (peqb_spec (tz t) p) as [Z|Z]; auto; apply LL in J; rewrite Z in J; lord). rewrite !Z. reflexivity. }
    assert (RZ : forall f : seg3 -> bool, nb (fun t => peqb (tz t) p && f t) R = 0).
    { intros f. clear - R0. induction R as [|t R IH]; auto. rewrite nb_cons in *. rewrite IH by lia. destruct (peqb (tz t) p); cbn [andb bn] in *; lia. }
    rewrite <- !(nb_perm _ _ _ X4), !nb_cons, !(nb_perm _ _ _ HR), !nb_cons, !RZ in FB. cbn [kc k1 k2 tz tw] in FB. rewrite Zc, Pp in FB. cbn [andb bn] in FB.
    revert FB. rewrite Wp. clear. destruct (c_int cp), (c_int co); cbn; intros Z; auto; discriminate Z. }
  assert (X5 : Permutation (k1 :: k2 :: heads (list_set ot (c_advance z co) cs2)) (heads cs)).
  { rewrite X2. rewrite W2. fold kc. rewrite perm_swap. exact X4. }
  destruct (take_two k1 k2 (heads (list_set ot (c_advance z co) cs2)) L B p) as (B' & PB' & bB' & iB'); auto.
  { rewrite X5. exact PB. } { cbn [k1 k2 tw]. rewrite W2, Wp. reflexivity. }
  split; [|split; [|split]].
  - rewrite map_set, set_id; auto. rewrite nth_error_map, N2o. reflexivity.
  - intros y J. apply in_set in J as [->|J]; [intros _; cbn [c_advance c_coords]; rewrite C2; cbn; lia|]. unfold cs2 in J. apply in_set in J as [->|J]; [discriminate|]. unfold cs1 in J. rewrite set_set in J. apply in_set in J as [->|J]; [discriminate|auto].
  - exists B'. auto.
  - pose proof (exch cedges cs cur cc cc' Nc) as Y1. fold cs1 in Y1. fold (edgs cs1) (edgs cs) in Y1. pose proof (exch cedges cs2 ot co (c_advance z co) N2o) as Y2. fold (edgs cs2) in Y2. fold (edgs (list_set ot (c_advance z co) cs2)) in Y2.
    assert (Q1 : cedges cc = ori (c_int cc) (p, z) :: cedges cc') by (unfold cedges; rewrite Cc; reflexivity).
    assert (Q2 : cedges (c_advance z co) = ori (c_int cc) (p, z) :: cedges co) by (unfold cedges; cbn [c_advance c_coords c_int]; rewrite C2, redges_cons, W2; reflexivity).
    rewrite Q1 in Y1. rewrite Q2 in Y2. destruct Ee as (d & Pd). exists d. rewrite <- Pd. apply (Permutation_app_inv_l (cedges co)). rewrite Y2, H2.
    apply (Permutation_app_inv_l (cedges cc')). rewrite (Permutation_app_comm (cedges cc')). cbn [app]. rewrite <- (app_assoc (cedges co)), (Permutation_app_comm (edgs cs1)).
    rewrite (Permutation_app_comm (cedges co) (edgs cs)), (app_assoc (cedges cc')), <- Y1. cbn [app]. apply perm_skip. rewrite (Permutation_app_comm (cedges co)). reflexivity.
Qed.
End Event.
