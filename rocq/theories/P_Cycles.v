(** Rings in a graph in which no vertex has more than two neighbours. *)
Require Import List Bool Arith Lia Permutation.
From Verif Require Import Base Scalar M_Events M_Geo M_LineOrPoint M_Rings M_MonoPoly M_Op.
From Verif Require P_RingWalk.
From Verif Require Import S_Geo P_Geo S_Mono P_Mono S_Rings S_Op P_LamGeo P_LamSpec S_Written.
Import Datatypes.
Import ListNotations.
Local Open Scope list_scope.
Local Open Scope nat_scope.

(** ** The edges of a ring written differently *)
Lemma restarted_edges : forall r r', restarted r r' -> Permutation (edges r) (edges r').
Proof.
  intros r r' (p & u & q & v & -> & ->). change (p :: u ++ q :: v ++ [p]) with ((p :: u) ++ q :: (v ++ [p])). change (q :: v ++ p :: u ++ [q]) with ((q :: v) ++ p :: (u ++ [q])).
  rewrite (edges_app (p :: u)), (edges_app (q :: v)). apply Permutation_app_comm.
Qed.
Lemma rev_twice : forall l : list (pt * pt), map reversed (map reversed l) = l.
Proof. intros l. rewrite map_map, (map_ext _ (fun x => x)) by (intros [a b]; reflexivity). apply map_id. Qed.
Lemma same_edges : forall r r', same_ring r r' -> Permutation (edges r) (edges r') \/ Permutation (edges r) (map reversed (edges r')).
Proof.
  intros r r' (s & D & E). assert (P : Permutation (edges r) (edges s)) by (destruct D as [->|D]; [reflexivity|apply restarted_edges; auto]).
  destruct E as [->| ->]; [left; auto|right]. rewrite P, edges_rev, map_rev, rev_twice. apply Permutation_rev.
Qed.
Lemma restarted_length : forall r r', restarted r r' -> List.length r = List.length r'.
Proof. intros r r' (p & u & q & v & -> & ->). cbn. repeat (rewrite app_length; cbn). lia. Qed.
Lemma same_length : forall r r', same_ring r r' -> List.length r = List.length r'.
Proof. intros r r' (s & D & E). assert (L : List.length r = List.length s) by (destruct D as [->|D]; [reflexivity|apply restarted_length; auto]). destruct E as [->| ->]; rewrite ?rev_length; auto. Qed.
Lemma restarted_mem : forall r r', restarted r r' -> forall v, In v r <-> In v r'.
Proof. intros r r' (p & u & q & v & -> & ->) x. cbn. rewrite !in_app_iff. cbn. rewrite !in_app_iff. cbn. tauto. Qed.
Lemma same_mem : forall r r', same_ring r r' -> forall v, In v r <-> In v r'.
Proof. intros r r' (s & D & E) v. assert (L : In v r <-> In v s) by (destruct D as [->|D]; [reflexivity|apply restarted_mem; auto]). destruct E as [->| ->]; rewrite <- ?in_rev; auto. Qed.
Lemma same_closed : forall r r', closed r -> same_ring r r' -> closed r'.
Proof.
  intros r r' C (s & D & E). assert (Cs : closed s).
  { destruct D as [->|(p & u & q & v & -> & ->)]; auto. unfold closed. change (q :: v ++ p :: u ++ [q]) with ((q :: v) ++ (p :: u) ++ [q]). rewrite app_assoc. apply last_last. }
  destruct E as [->| ->]; auto. destruct s as [|a s]; auto. unfold closed in Cs. cbn [rev]. destruct s as [|b s]; auto.
  destruct (exists_last (l := b :: s)) as (m & z & Z); [discriminate|]. rewrite Z in *. rewrite app_comm_cons, last_last in Cs. subst z. rewrite rev_unit. cbn [app]. unfold closed. rewrite app_comm_cons. apply last_last.
Qed.

(** ** Starting a ring at one of its edges *)
Lemma turn_to : forall r a b, proper_ring r -> In (a, b) (edges r) -> exists s l, (s = r \/ restarted r s) /\ s = a :: b :: l ++ [a].
Proof.
  intros r a b (p & l' & -> & N & Ln) I. apply edges_in in I as (x & y & Q). destruct x as [|z x].
  - cbn in Q. injection Q as <- Q. destruct l' as [|c l']; [cbn in Ln; lia|]. cbn in Q. injection Q as -> <-. exists (p :: b :: l' ++ [p]), l'. auto.
  - cbn in Q. injection Q as <- Q. destruct y as [|y0 y].
    + change [a; b] with ([a] ++ [b]) in Q. rewrite app_assoc in Q. apply app_inj_tail in Q as [-> <-]. exists (a :: [] ++ p :: x ++ [a]), x. split; [right|reflexivity]. exists p, x, a, []. rewrite <- app_assoc. auto.
    + destruct (exists_last (l := y0 :: y)) as (m & w & Z); [discriminate|]. rewrite Z in Q. replace (x ++ a :: b :: m ++ [w]) with ((x ++ a :: b :: m) ++ [w]) in Q by (rewrite <- app_assoc; reflexivity).
      apply app_inj_tail in Q as [-> <-]. exists (a :: (b :: m) ++ p :: x ++ [a]), (m ++ p :: x). split; [right|cbn; rewrite <- app_assoc; reflexivity]. exists p, x, a, (b :: m). rewrite <- !app_assoc. auto.
Qed.
Lemma turn_back : forall r a b, proper_ring r -> In (b, a) (edges r) -> exists s l, (s = r \/ restarted r s) /\ rev s = a :: b :: l ++ [a].
Proof.
  intros r a b (p & l' & -> & N & Ln) I. apply edges_in in I as (x & y & Q). destruct x as [|z x].
  - cbn in Q. injection Q as <- Q. destruct l' as [|c l']; [cbn in Ln; lia|]. cbn in Q. injection Q as -> <-. exists (a :: l' ++ p :: [] ++ [a]), (rev l'). split; [right; exists p, [], a, l'; auto|].
    cbn [app]. cbn [rev]. rewrite rev_app_distr. reflexivity.
  - cbn in Q. injection Q as <- Q. destruct y as [|y0 y].
    + change [b; a] with ([b] ++ [a]) in Q. rewrite app_assoc in Q. apply app_inj_tail in Q as [-> <-]. exists (p :: (x ++ [b]) ++ [p]), (rev x). split; [left; auto|]. cbn [rev]. rewrite !rev_app_distr. reflexivity.
    + destruct (exists_last (l := y0 :: y)) as (m & w & Z); [discriminate|]. rewrite Z in Q. replace (x ++ b :: a :: m ++ [w]) with ((x ++ b :: a :: m) ++ [w]) in Q by (rewrite <- app_assoc; reflexivity).
      apply app_inj_tail in Q as [-> <-]. exists (a :: m ++ p :: (x ++ [b]) ++ [a]), (rev x ++ p :: rev m). split; [right; exists p, (x ++ [b]), a, m; rewrite <- !app_assoc; auto|].
      cbn [rev]. rewrite rev_app_distr. cbn [rev]. rewrite rev_unit, rev_unit. cbn [app]. rewrite <- !app_assoc. reflexivity.
Qed.
Lemma proper_same : forall r r', proper_ring r -> same_ring r r' -> proper_ring r'.
Proof.
  intros r r' Pr (s & D & E). assert (Ps : proper_ring s).
  { destruct D as [->|(p & u & q & v & -> & ->)]; auto. destruct Pr as (p' & l & Q & N & L). injection Q as <- Q.
    assert (Ql : l = u ++ q :: v). { replace (u ++ q :: v ++ [p]) with ((u ++ q :: v) ++ [p]) in Q by (rewrite <- app_assoc; reflexivity). apply app_inj_tail in Q as [Q _]. auto. } subst l.
    exists q, (v ++ p :: u). split; [rewrite <- app_assoc; reflexivity|]. split.
    - apply (Permutation_NoDup (l := p :: u ++ q :: v)); auto. change (p :: u ++ q :: v) with ((p :: u) ++ q :: v). rewrite Permutation_app_comm. reflexivity.
    - rewrite app_length in *. cbn in *. lia. }
  destruct E as [->| ->]; auto. destruct Ps as (p & l & -> & N & L). exists p, (rev l). split; [cbn; rewrite rev_unit; reflexivity|]. split; [|rewrite rev_length; auto].
  apply NoDup_cons_iff in N as [N1 N2]. constructor; [rewrite <- in_rev; auto|apply NoDup_rev; auto].
Qed.

Section Graph.
Variable Nb : pt -> pt -> Prop.
Hypothesis Sym : forall a b, Nb a b -> Nb b a.
Hypothesis Two : forall v a b c, Nb v a -> Nb v b -> Nb v c -> a = b \/ b = c \/ a = c.
Definition path (l : list pt) : Prop := forall a b, In (a, b) (edges l) -> Nb a b.

Lemma path_cons : forall a b l, path (a :: b :: l) -> Nb a b /\ path (b :: l).
Proof. intros a b l P. split; [apply P; rewrite edges_cons; left; auto|]. intros x y I. apply P. rewrite edges_cons. right; auto. Qed.
Lemma walk : forall l l' x y p, path (x :: y :: l ++ [p]) -> path (x :: y :: l' ++ [p]) -> NoDup (x :: y :: l) -> NoDup (x :: y :: l') ->
  ~ In p (y :: l) -> ~ In p (y :: l') -> (x = p -> l <> [] /\ l' <> []) -> l = l'.
Proof.
  assert (H : forall l x y p z, path (x :: y :: l ++ [p]) -> NoDup (x :: y :: l) -> (x = p -> l <> []) -> Nb y z -> z <> x -> z = hd p l).
  { intros l x y p z P N E Z Zx. apply path_cons in P as [P1 P]. destruct l as [|w l].
    - cbn in P. apply path_cons in P as [P2 _]. cbn. destruct (Two y x z p (Sym _ _ P1) Z P2) as [Q|[Q|Q]]; auto; [congruence|]. exfalso. apply E; auto.
    - cbn in P. apply path_cons in P as [P2 _]. cbn. destruct (Two y x z w (Sym _ _ P1) Z P2) as [Q|[Q|Q]]; auto; [congruence|]. exfalso. subst w. apply NoDup_cons_iff in N as [N _]. apply N. right; left; auto. }
  induction l as [|w l IH]; intros l' x y p P P' N N' Ip Ip' E.
  - destruct l' as [|w' l']; auto. exfalso. cbn in P'. pose proof (path_cons _ _ _ P') as [_ P2]. apply path_cons in P2 as [P2 _].
    assert (Q : w' = p). { apply (H [] x y p w'); auto; [intros Q; apply (proj1 (E Q))|]. intros ->. apply NoDup_cons_iff in N' as [N' _]. apply N'. right; left; auto. }
    apply Ip'. subst. right; left; auto.
  - assert (P2 : Nb y w) by (cbn in P; apply path_cons in P as [_ P]; apply path_cons in P as [P _]; auto).
    assert (Wx : w <> x) by (intros ->; apply NoDup_cons_iff in N as [N _]; apply N; right; left; auto).
    pose proof (H l' x y p w P' N' (fun Q => proj2 (E Q)) P2 Wx) as Q. destruct l' as [|w' l']; cbn in Q; subst.
    + exfalso. apply Ip. right; left; auto.
    + f_equal. cbn in P, P'. apply path_cons in P as [_ P], P' as [_ P']. apply NoDup_cons_iff in N as [_ N], N' as [_ N']. apply (IH l' y w' p); auto.
      * intros I. apply Ip. right; auto.
      * intros I. apply Ip'. right; auto.
      * intros ->. exfalso. apply Ip. left; auto.
Qed.
Lemma parts : forall p b l, proper_ring (p :: b :: l ++ [p]) -> NoDup (p :: b :: l) /\ ~ In p (b :: l) /\ l <> [].
Proof.
  intros p b l (q & m & Q & N & L). injection Q as <- Q. change (b :: l ++ [p]) with ((b :: l) ++ [p]) in Q. apply app_inj_tail in Q as [<- _]. split; auto. split; [apply NoDup_cons_iff in N as [N _]; auto|]. intros ->. cbn in L. lia.
Qed.
(** Two rings with a common edge are the same. *)
Lemma one_ring : forall r a b l, proper_ring r -> proper_ring (a :: b :: l ++ [a]) -> path r -> path (a :: b :: l ++ [a]) ->
  In (a, b) (edges r) \/ In (b, a) (edges r) -> same_ring r (a :: b :: l ++ [a]).
Proof.
  assert (K : forall l l' a b, proper_ring (a :: b :: l ++ [a]) -> proper_ring (a :: b :: l' ++ [a]) -> path (a :: b :: l ++ [a]) -> path (a :: b :: l' ++ [a]) -> l = l').
  { intros l l' a b Pr Pr' P P'. destruct (parts _ _ _ Pr) as (N1 & N2 & N3). destruct (parts _ _ _ Pr') as (M1 & M2 & M3). apply (walk l l' a b a); auto. }
  assert (Pt : forall r s, same_ring r s -> path r -> path s).
  { intros r s S P x y I. destruct (same_edges _ _ S) as [Q|Q]; [apply P; apply (Permutation_in _ (Permutation_sym Q)); auto|]. apply Sym, P. apply (Permutation_in _ (Permutation_sym Q)). apply in_map_iff. exists (x, y). auto. }
  intros r a b l Pr Pr' P P' [I|I].
  - destruct (turn_to r a b Pr I) as (s & m & D & ->). assert (S : same_ring r (a :: b :: m ++ [a])) by (eexists; split; [exact D|left; auto]).
    assert (m = l) by (apply (K m l a b); eauto using proper_same). subst. auto.
  - destruct (turn_back r a b Pr I) as (s & m & D & E). assert (S : same_ring r (a :: b :: m ++ [a])) by (exists s; split; [exact D|right; auto]).
    assert (m = l) by (apply (K m l a b); eauto using proper_same). subst. auto.
Qed.
End Graph.

(** ** Matching two lists *)
Lemma match_up : forall {X} (S : X -> X -> Prop) l l', (forall x, In x l -> exists x', In x' l' /\ S x x') -> (forall x', In x' l' -> exists x, In x l /\ S x x') ->
  ForallOrdPairs (fun x y => forall z, S x z -> S y z -> False) l -> ForallOrdPairs (fun x y => forall z, S z x -> S z y -> False) l' -> same_up_to S l l'.
Proof.
  intros X S l. induction l as [|x l IH]; intros l' A B Fl Fl'.
  - destruct l' as [|x' l']; [exists []; split; constructor|]. destruct (B x' (or_introl eq_refl)) as (x & [] & _).
  - destruct (A x (or_introl eq_refl)) as (x' & I & Sx). apply in_split in I as (l1 & l2 & ->).
    assert (Pm : Permutation (x' :: l1 ++ l2) (l1 ++ x' :: l2)) by apply Permutation_middle. inversion Fl as [|? ? Fx Fl1]; subst. rewrite Forall_forall in Fx.
    assert (Fp : ForallOrdPairs (fun x y => forall z, S z x -> S z y -> False) (x' :: l1 ++ l2)).
    { apply (P_RingWalk.fop_perm (fun x y => forall z, S z x -> S z y -> False) (l1 ++ x' :: l2)); [intros a b H z Z1 Z2; apply (H z); auto|symmetry; exact Pm|exact Fl']. }
    inversion Fp as [|? ? Fx' Fl2]; subst. rewrite Forall_forall in Fx'.
    destruct (IH (l1 ++ l2)) as (m & P & F); auto.
    + intros y I. destruct (A y (or_intror I)) as (y' & J & Sy). apply (Permutation_in _ (Permutation_sym Pm)) in J. destruct J as [<-|J]; [|eauto]. destruct (Fx y I _ Sx Sy).
    + intros y' I. destruct (B y') as (y & J & Sy); [apply (Permutation_in _ Pm); right; auto|]. destruct J as [<-|J]; [|eauto]. destruct (Fx' y' I _ Sx Sy).
    + exists (x' :: m). split; [rewrite P; auto|constructor; auto].
Qed.
