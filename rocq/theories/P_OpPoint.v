(** One point of the boolean sweep: sorting, closing edges, labelling starts. *)
Require Import List String Bool Arith Lia Permutation Sorted.
From Verif Require Import Base Scalar M_Events M_Geo M_LineOrPoint M_Slab M_Sweep M_Rings M_Op S_Geo S_Op P_Geo P_LineOrPoint P_Slab P_OpLab.
Import Datatypes.
Import ListNotations.
Local Open Scope nat_scope.
Notation crossing := (crossing nat).

(** * Sorting *)
Section Sort.
Variable kx : crossing -> Qc.
Definition ccmp (x y : crossing) : comparison :=
  match cr_left x, cr_left y with
  | false, true => Lt
  | true, false => Gt
  | _, _ => (kx x ?= kx y)%Qc
  end.
Definition cle (x y : crossing) : Prop := ccmp x y <> Gt.
Lemma ccmp_gt : forall x y, ccmp x y = Gt -> ccmp y x = Lt.
Proof.
  intros x y. unfold ccmp. destruct (cr_left x), (cr_left y); auto; try discriminate; rewrite (qcmp_opp (kx x)); intros ->; reflexivity.
Qed.
Lemma cle_trans : forall x y z, cle x y -> cle y z -> cle x z.
Proof.
  intros x y z. unfold cle, ccmp. destruct (cr_left x), (cr_left y), (cr_left z); try congruence;
    destruct (qcmp_spec (kx x) (kx y)), (qcmp_spec (kx y) (kx z)), (qcmp_spec (kx x) (kx z)); intros A B E; try congruence;
    exfalso; subst; qcl.
Qed.
Definition ceq (x y : crossing) : bool := match ccmp x y with Eq => true | _ => false end.
Lemma ceq_iff : forall x y, ceq x y = true <-> cr_left x = cr_left y /\ kx x = kx y.
Proof.
  intros x y. unfold ceq, ccmp. destruct (cr_left x), (cr_left y); try (split; [discriminate|intros [Q _]; discriminate Q]);
    destruct (qcmp_spec (kx x) (kx y)) as [A|A|A]; split; auto; try discriminate; intros [_ Q]; exfalso; rewrite Q in A; destruct (Qclt_not_eq _ _ A eq_refl).
Qed.
Lemma ceq_trans_l : forall x y z, ceq x y = true -> ceq z x = ceq z y.
Proof. intros x y z E. apply ceq_iff in E as [E1 E2]. unfold ceq, ccmp. rewrite E1, E2. reflexivity. Qed.

Lemma insert_ok : forall x l, (forall y, In y l -> compare_crossings x y = Ok (ccmp x y)) -> StronglySorted cle l ->
  exists l', insert_crossing x l = Ok l' /\ Permutation (x :: l) l' /\ StronglySorted cle l' /\
    forall z, filter (ceq z) l' = filter (ceq z) (x :: l).
Proof.
  intros x l HC SL. induction SL as [|y l SL IH F]; cbn [insert_crossing].
  - exists [x]. split; [reflexivity|]. split; [auto|]. split; [constructor; constructor|reflexivity].
  - rewrite HC by (left; auto). cbn [bind]. destruct (ccmp x y) eqn:E.
    + exists (x :: y :: l). split; [reflexivity|]. split; [auto|]. split; [|reflexivity].
      constructor; [constructor; auto|]. rewrite Forall_forall in *. intros z [<-|Iz]; [unfold cle; congruence|].
      apply (cle_trans x y z); [unfold cle; congruence|auto].
    + exists (x :: y :: l). split; [reflexivity|]. split; [auto|]. split; [|reflexivity].
      constructor; [constructor; auto|]. rewrite Forall_forall in *. intros z [<-|Iz]; [unfold cle; congruence|].
      apply (cle_trans x y z); [unfold cle; congruence|auto].
    + destruct IH as (l' & E1 & P & SL' & St); [intros z Iz; apply HC; right; auto|]. rewrite E1. cbn [bind].
      exists (y :: l'). split; [reflexivity|]. split; [|split].
      * eapply perm_trans; [apply perm_swap|]. constructor. exact P.
      * constructor; auto. rewrite Forall_forall in *. intros z Iz. apply (Permutation_in _ (Permutation_sym P)) in Iz. destruct Iz as [<-|Iz]; auto.
        apply ccmp_gt in E. unfold cle. congruence.
      * intros z. cbn [filter]. rewrite St. cbn [filter]. destruct (ceq z x) eqn:Zx, (ceq z y) eqn:Zy; auto. exfalso.
        apply ceq_iff in Zx as [A1 A2]. apply ceq_iff in Zy as [B1 B2]. assert (Q : ceq x y = true) by (apply ceq_iff; split; congruence).
        unfold ceq in Q. rewrite E in Q. discriminate.
Qed.
Lemma sort_ok : forall l, (forall x y, In x l -> In y l -> compare_crossings x y = Ok (ccmp x y)) ->
  exists l', insertion_sort l = Ok l' /\ Permutation l l' /\ StronglySorted cle l' /\ forall z, filter (ceq z) l' = filter (ceq z) l.
Proof.
  induction l as [|x l IH]; intros HC.
  - exists []. split; [reflexivity|]. split; [auto|]. split; [constructor|reflexivity].
  - destruct IH as (l1 & E1 & P1 & S1 & F1); [intros; apply HC; right; auto|]. cbn [insertion_sort]. rewrite E1. cbn [bind].
    destruct (insert_ok x l1) as (l' & E & P & SL & F); auto.
    { intros y Iy. apply HC; [left; auto|right]. eapply Permutation_in; [symmetry; exact P1|auto]. }
    exists l'. split; [exact E|]. split; [eapply perm_trans; [constructor; exact P1|exact P]|]. split; [exact SL|].
    intros z. rewrite F. cbn [filter]. rewrite F1. reflexivity.
Qed.
Definition kle (x y : crossing) : Prop := (kx x <= kx y)%Qc.
Lemma sorted_split : forall l, StronglySorted cle l -> exists E S, l = E ++ S /\
  (forall x, In x E -> cr_left x = false) /\ (forall x, In x S -> cr_left x = true) /\ StronglySorted kle E /\ StronglySorted kle S.
Proof.
  intros l SL. induction SL as [|x l SL IH F].
  - exists [], []. split; [reflexivity|]. split; [intros x []|]. split; [intros x []|]. split; constructor.
  - rewrite Forall_forall in F. destruct IH as (E & S & -> & LE & LS & SE & SS).
    assert (KL : forall y, In y (E ++ S) -> cr_left x = cr_left y -> kle x y).
    { intros y Iy Ey. specialize (F y Iy). unfold cle, ccmp in F. rewrite Ey in F. unfold kle. apply Qcle_alt. destruct (cr_left y); auto. }
    destruct (cr_left x) eqn:Ex.
    + assert (E = []) as ->.
      { destruct E as [|y E]; [reflexivity|]. exfalso. specialize (F y (or_introl eq_refl)). unfold cle, ccmp in F. rewrite Ex, (LE y (or_introl eq_refl)) in F. congruence. }
      exists [], (x :: S). split; [reflexivity|]. split; [auto|]. split; [intros y [<-|Iy]; auto|]. split; [auto|]. constructor; auto.
      apply Forall_forall. intros y Iy. apply KL; [exact Iy|]. rewrite LS by auto. reflexivity.
    + exists (x :: E), S. split; [reflexivity|]. split; [intros y [<-|Iy]; auto|]. split; [auto|]. split; [|auto]. constructor; auto.
      apply Forall_forall. intros y Iy. apply KL; [apply in_or_app; auto|]. rewrite LE by auto. reflexivity.
Qed.

(** * The edges with their labels *)
Section Labels.
Variables (ty : op_type) (n : nat) (gm : nat -> lop) (fs : nat -> bool).
Record wfe (es : list edge) : Prop := {
  we_len : List.length es = n;
  we_ok : forall c, c < n -> exists ed, nth_error es c = Some ed /\ e_geom ed = gm c /\ e_first ed = fs c
}.
Definition cell (es : list edge) (c : nat) : region := match nth_error es c with Some ed => e_region ed | None => region_infinity ty end.
(** A report on an edge whose first label is meant. *)
Definition okx (x : crossing) : Prop := cr_cross x < n /\ lex_lt (lop_first (cr_line x)) (lop_second (gm (cr_cross x))).
Lemma edge_at_ok : forall es c, wfe es -> c < n -> exists ed, edge_at es c = Ok ed /\ e_first ed = fs c /\ e_geom ed = gm c /\ nth_error es c = Some ed /\
  forall g, lex_lt (lop_first g) (lop_second (gm c)) -> get_region ed g = cell es c.
Proof.
  intros es c W L. destruct (we_ok es W c L) as (ed & E & G & Fi). exists ed. unfold edge_at, expect, cell. rewrite E. repeat split; auto.
  intros g Lg. unfold get_region. rewrite G. apply pltb_iff in Lg. rewrite Lg. reflexivity.
Qed.
Notation crossall := (crossall fs).
Definition same (x y : crossing) : bool := qeqb (kx y) (kx x).
Definition grp (l : list crossing) (x : crossing) : list nat := map (@cr_cross nat) (filter (same x) l).
Lemma same_iff : forall x y, same x y = true <-> kx y = kx x.
Proof. intros. apply qeqb_iff. Qed.

Fixpoint lasts (l : list crossing) : list crossing :=
  match l with
  | [] => []
  | x :: l' => if existsb (same x) l' then lasts l' else x :: lasts l'
  end.
Lemma lasts_in : forall l x, In x (lasts l) -> In x l.
Proof.
  induction l as [|y l IH]; intros x I; [destruct I|]. cbn [lasts] in I. destruct (existsb (same y) l); [right; auto|].
  destruct I as [<-|I]; [left; auto|right; auto].
Qed.
Lemma lasts_all : forall l x, In x l -> exists y, In y (lasts l) /\ kx y = kx x.
Proof.
  induction l as [|z l IH]; intros x I; [destruct I|]. cbn [lasts]. destruct (existsb (same z) l) eqn:E.
  - apply existsb_exists in E as (y & Iy & Ey). apply same_iff in Ey. destruct I as [<-|I]; [|auto].
    destruct (IH y Iy) as (w & Iw & Ew). exists w. split; [auto|congruence].
  - destruct I as [<-|I]; [exists z; split; [left; auto|auto]|]. destruct (IH x I) as (w & Iw & Ew). exists w. split; [right; auto|auto].
Qed.
Lemma lasts_NoDup : forall l, NoDup (map kx (lasts l)).
Proof.
  induction l as [|z l IH]; [constructor|]. cbn [lasts]. destruct (existsb (same z) l) eqn:E; auto. cbn [map]. constructor; auto.
  intros I. apply in_map_iff in I as (y & Ey & Iy). apply lasts_in in Iy.
  assert (Q : existsb (same z) l = true) by (apply existsb_exists; exists y; split; [auto|apply same_iff; auto]). congruence.
Qed.

Definition ghost (s : list (lop * winding)) (g : lop) (w : winding) : res (list (lop * winding)) := Ok (s ++ [(g, w)]).
Definition emit1 (es : list edge) (E : list crossing) (x : crossing) : list (lop * winding) :=
  let P := cell es (cr_cross x) in
  let N := crossall (grp E x) P in
  if xorb (is_ty P ty) (is_ty N ty) then [(cr_line x, if negb (is_ty N ty) then Ccw else Cw)] else [].

Lemma filter_none2 : forall (f : crossing -> bool) l, (forall x, In x l -> f x = false) -> filter f l = [].
Proof.
  intros f l K. induction l as [|a l IH]; [reflexivity|]. cbn [filter]. rewrite (K a (or_introl eq_refl)). apply IH. intros; apply K; right; auto.
Qed.
Lemma filter_all : forall (f : crossing -> bool) l, (forall x, In x l -> f x = true) -> filter f l = l.
Proof.
  intros f l K. induction l as [|a l IH]; [reflexivity|]. cbn [filter]. rewrite (K a (or_introl eq_refl)). f_equal. apply IH. intros; apply K; right; auto.
Qed.
(** Does the next entry belong to the same group? *)
Lemma overlap_ok : forall x l S, (forall y, In y (l ++ S) -> compare_crossings x y = Ok (ccmp x y)) -> cr_left x = false ->
  (forall y, In y l -> cr_left y = false) -> (forall y, In y S -> cr_left y = true) -> StronglySorted kle (x :: l) ->
  has_overlap x (l ++ S) = Ok (existsb (same x) l).
Proof.
  intros x l S HC Lx Ll LS SL. inversion SL as [|? ? SL' F]; subst. rewrite Forall_forall in F. destruct l as [|y l]; cbn [app].
  - destruct S as [|y S]; [reflexivity|]. cbn [has_overlap]. rewrite HC by (left; auto). cbn [bind]. unfold ccmp. rewrite Lx, (LS y) by (left; auto). reflexivity.
  - cbn [has_overlap]. rewrite HC by (left; auto). cbn [bind]. unfold ccmp. rewrite Lx, (Ll y) by (left; auto).
    f_equal. destruct (existsb (same x) (y :: l)) eqn:E.
    + apply existsb_exists in E as (z & Iz & Ez). apply same_iff in Ez. destruct (qcmp_spec (kx x) (kx y)) as [A|A|A]; auto; exfalso.
      * inversion SL' as [|? ? _ F']; subst. rewrite Forall_forall in F'. destruct Iz as [<-|Iz]; [qcl|]. specialize (F' z Iz). unfold kle in F'. qcl.
      * specialize (F y (or_introl eq_refl)). unfold kle in F. qcl.
    + cbn [existsb] in E. apply orb_false_iff in E as [E _]. destruct (qcmp_spec (kx x) (kx y)) as [A|A|A]; auto. exfalso.
      assert (Q : same x y = true) by (apply same_iff; auto). congruence.
Qed.

Lemma process_ends_ok : forall es E S, wfe es -> StronglySorted kle E -> (forall x, In x E -> cr_left x = false) -> (forall x, In x S -> cr_left x = true) ->
  (forall x y, In x (E ++ S) -> In y (E ++ S) -> compare_crossings x y = Ok (ccmp x y)) -> (forall x, In x E -> okx x) ->
  (forall x y, In x E -> In y E -> kx x = kx y -> cell es (cr_cross x) = cell es (cr_cross y)) ->
  forall l pre next s, E = pre ++ l ->
  (forall x l', l = x :: l' -> match next with None => cell es (cr_cross x) | Some r => r end = crossall (grp pre x) (cell es (cr_cross x))) ->
  process_ends ghost ty es (l ++ S) next s = Ok (s ++ flat_map (emit1 es E) (lasts l), S).
Proof.
  intros es E S W SE LE LS HC OK HCell. induction l as [|x l IH]; intros pre next s EE NX.
  - cbn [app lasts flat_map]. rewrite app_nil_r. destruct S as [|y S]; [reflexivity|]. cbn [process_ends]. rewrite LS by (left; auto). reflexivity.
  - assert (Ix : In x E) by (rewrite EE; apply in_or_app; right; left; auto).
    cbn [app process_ends]. rewrite LE by auto. destruct (OK x Ix) as [Lx Px].
    destruct (edge_at_ok es (cr_cross x) W Lx) as (ed & E1 & E2 & _ & _ & E4). rewrite E1. cbn [bind]. rewrite (E4 _ Px), E2.
    rewrite (NX x l eq_refl).
    assert (SL : StronglySorted kle (x :: l)).
    { rewrite EE in SE. clear - SE. induction pre as [|a pre IH]; [exact SE|]. inversion SE; auto. }
    rewrite (overlap_ok x l S); auto.
    2:{ intros y Iy. apply HC; [apply in_or_app; auto|]. rewrite EE, <- app_assoc. apply in_or_app; right. right. exact Iy. }
    2:{ intros y Iy. apply LE. rewrite EE. apply in_or_app; right; right; auto. }
    cbn [bind].
    assert (G1 : region_cross (fs (cr_cross x)) (crossall (grp pre x) (cell es (cr_cross x))) = crossall (grp (pre ++ [x]) x) (cell es (cr_cross x))).
    { unfold grp. rewrite filter_app. cbn [filter]. rewrite (proj2 (same_iff x x) eq_refl), map_app, crossall_app. reflexivity. }
    rewrite G1. assert (EE' : E = (pre ++ [x]) ++ l) by (rewrite <- app_assoc; exact EE).
    cbn [lasts]. destruct (existsb (same x) l) eqn:Ov.
    + apply (IH (pre ++ [x])); auto. intros y l' ->. 
      assert (Exy : kx y = kx x).
      { apply existsb_exists in Ov as (z & Iz & Ez). apply same_iff in Ez. inversion SL as [|? ? SL' F]; subst. rewrite Forall_forall in F.
        pose proof (F y (or_introl eq_refl)) as A. inversion SL' as [|? ? _ F']; subst. rewrite Forall_forall in F'. destruct Iz as [<-|Iz]; auto.
        specialize (F' z Iz). unfold kle in *. qcl. }
      assert (Ec : cell es (cr_cross y) = cell es (cr_cross x)).
      { apply HCell; auto. rewrite EE. apply in_or_app; right; right; left; auto. }
      rewrite Ec. f_equal. unfold grp. f_equal. apply filter_ext. intros z. unfold same. rewrite Exy. reflexivity.
    + assert (GG : crossall (grp (pre ++ [x]) x) (cell es (cr_cross x)) = crossall (grp E x) (cell es (cr_cross x))).
      { rewrite EE'. unfold grp. rewrite (filter_app _ (pre ++ [x]) l). rewrite (filter_none2 (same x) l); [rewrite app_nil_r; reflexivity|].
        intros y Iy. destruct (same x y) eqn:Q; auto. exfalso. assert (Q' : existsb (same x) l = true) by (apply existsb_exists; eauto). congruence. }
      rewrite GG. cbn [flat_map]. unfold emit1 at 1.
      assert (NX' : forall y l', l = y :: l' -> cell es (cr_cross y) = crossall (grp (pre ++ [x]) y) (cell es (cr_cross y))).
      { intros y l' El. unfold grp. rewrite filter_none2; [reflexivity|]. intros z Iz. destruct (same y z) eqn:Q; auto. exfalso. apply same_iff in Q.
        assert (Kz : kle z x).
        { apply in_app_iff in Iz as [Iz|[<-|[]]]; [|unfold kle; apply Qcle_refl]. rewrite EE in SE. clear - SE Iz. induction pre as [|a pre IH]; [destruct Iz|].
          inversion SE as [|? ? SE' F]; subst. destruct Iz as [<-|Iz]; [|auto]. rewrite Forall_forall in F. apply F. apply in_or_app; right; left; auto. }
        inversion SL as [|? ? _ F]; subst. rewrite Forall_forall in F. pose proof (F y (or_introl eq_refl)) as Ky. unfold kle in *.
        assert (Exy : kx y = kx x) by (apply Qcle_antisym; [rewrite <- Q; auto|auto]).
        assert (Q' : existsb (same x) (y :: l') = true) by (cbn [existsb]; rewrite (proj2 (same_iff x y) Exy); reflexivity). congruence. }
      destruct (xorb (is_ty (cell es (cr_cross x)) ty) (is_ty (crossall (grp E x) (cell es (cr_cross x))) ty)).
      * unfold ghost at 1. cbn [bind]. rewrite (IH (pre ++ [x]) None) by auto. rewrite <- app_assoc. reflexivity.
      * cbn [bind]. rewrite (IH (pre ++ [x]) None) by auto. reflexivity.
Qed.

(** ** Starts *)
Lemma set_regions_ok : forall r l es, wfe es -> (forall x, In x l -> okx x) ->
  exists es', set_regions es r l = Ok es' /\ wfe es' /\
    forall c, cell es' c = if inb (map (@cr_cross nat) l) c then r else cell es c.
Proof.
  intros r. induction l as [|x l IH]; intros es W OK.
  - exists es. split; [reflexivity|]. split; auto.
  - destruct (OK x (or_introl eq_refl)) as [Lx Px]. destruct (edge_at_ok es (cr_cross x) W Lx) as (ed & E1 & E2 & E3 & E4 & _).
    unfold set_regions. cbn [fold_res]. rewrite E1. cbn [bind].
    set (es1 := list_set (cr_cross x) (set_region r (cr_line x) ed) es).
    assert (Ll : cr_cross x < List.length es) by (rewrite (we_len _ W); auto).
    assert (W1 : wfe es1).
    { constructor; [unfold es1; rewrite list_set_length; apply W|]. intros c Lc. unfold es1. destruct (Nat.eq_dec (cr_cross x) c) as [<-|N].
      - rewrite list_set_same by auto. eexists. split; [reflexivity|]. unfold set_region. destruct (pltb _ _); auto.
      - rewrite list_set_other by auto. apply W; auto. }
    destruct (IH es1 W1) as (es' & F & W' & Cl); [intros; apply OK; right; auto|]. exists es'. split; [exact F|]. split; auto.
    intros c. rewrite Cl. cbn [map inb existsb]. fold (inb (map (@cr_cross nat) l) c).
    destruct (inb (map (@cr_cross nat) l) c); [rewrite orb_true_r; reflexivity|]. rewrite orb_false_r. unfold cell, es1. destruct (Nat.eqb_spec c (cr_cross x)) as [->|N].
    + rewrite list_set_same by auto. unfold set_region. rewrite E3. apply pltb_iff in Px. rewrite Px. reflexivity.
    + rewrite list_set_other by auto. reflexivity.
Qed.
Definition lower (S : list crossing) (x : crossing) : list nat := map (@cr_cross nat) (filter (fun y => qleb (kx y) (kx x)) S).
Lemma overlap_ok2 : forall x l, (forall y, In y l -> compare_crossings x y = Ok (ccmp x y)) -> cr_left x = true ->
  (forall y, In y l -> cr_left y = true) ->
  has_overlap x l = Ok (match l with y :: _ => same x y | [] => false end).
Proof.
  intros x l HC Lx Ll. destruct l as [|y l]; [reflexivity|]. cbn [has_overlap]. rewrite HC by (left; auto). cbn [bind]. unfold ccmp.
  rewrite Lx, (Ll y) by (left; auto). f_equal. unfold same, qeqb. rewrite (qcmp_opp (kx x)). destruct (kx x ?= kx y)%Qc; reflexivity.
Qed.
Lemma SS_app : forall l l', StronglySorted kle (l ++ l') -> StronglySorted kle l' /\ forall x y, In x l -> In y l' -> kle x y.
Proof.
  induction l as [|a l IH]; intros l' SL; [split; [auto|intros x y []]|]. cbn [app] in SL. inversion SL as [|? ? SL' F]; subst. destruct (IH _ SL') as [A B]. split; auto.
  intros x y [<-|Ix] Iy; auto. rewrite Forall_forall in F. apply F. apply in_or_app; auto.
Qed.

Lemma process_starts_ok : forall S r0, StronglySorted kle S -> (forall x, In x S -> cr_left x = true) ->
  (forall x y, In x S -> In y S -> compare_crossings x y = Ok (ccmp x y)) -> (forall x, In x S -> okx x) -> NoDup (map (@cr_cross nat) S) ->
  forall l g pre es r, S = pre ++ g ++ l -> wfe es -> r = crossall (map (@cr_cross nat) (pre ++ g)) r0 ->
  (g <> [] -> l <> []) -> (forall x y, In x (g ++ match l with z :: _ => [z] | [] => [] end) -> In y (g ++ match l with z :: _ => [z] | [] => [] end) -> kx x = kx y) ->
  (forall x y, In x pre -> In y (g ++ l) -> kx x <> kx y) ->
  exists es', process_starts es l g r = Ok es' /\ wfe es' /\
    (forall c, inb (map (@cr_cross nat) (g ++ l)) c = false -> cell es' c = cell es c) /\
    (forall x, In x (g ++ l) -> cell es' (cr_cross x) = crossall (lower S x) r0).
Proof.
  intros S r0 SS LS HC OK ND. induction l as [|x l IH]; intros g pre es r ES W Er Ng Hg Hp.
  - destruct g as [|y g]; [|exfalso; apply Ng; [discriminate|reflexivity]]. exists es. split; [reflexivity|]. split; auto. split; [auto|intros x []].
  - assert (Ix : In x S) by (rewrite ES; apply in_or_app; right; apply in_or_app; right; left; auto).
    destruct (OK x Ix) as [Lx Px]. cbn [process_starts]. destruct (edge_at_ok es (cr_cross x) W Lx) as (ed & E1 & E2 & _ & _ & _).
    rewrite E1. cbn [bind]. rewrite E2.
    assert (Er' : region_cross (fs (cr_cross x)) r = crossall (map (@cr_cross nat) (pre ++ g ++ [x])) r0).
    { rewrite Er, !map_app, !crossall_app. reflexivity. }
    rewrite Er'. rewrite (overlap_ok2 x l).
    2:{ intros y Iy. apply HC; auto. rewrite ES. apply in_or_app; right; apply in_or_app; right; right; auto. }
    2:{ auto. }
    2:{ intros y Iy. apply LS. rewrite ES. apply in_or_app; right; apply in_or_app; right; right; auto. }
    cbn [bind]. assert (ES1 : S = pre ++ (g ++ [x]) ++ l) by (rewrite <- app_assoc; exact ES).
    destruct (match l with y :: _ => same x y | [] => false end) eqn:Ov.
    + destruct l as [|y l]; [discriminate|]. apply same_iff in Ov.
      destruct (IH (g ++ [x]) pre es (crossall (map (@cr_cross nat) (pre ++ g ++ [x])) r0) ES1 W eq_refl) as (es' & F & W' & C1 & C2).
      * intros _; discriminate.
      * intros a b Ia Ib. assert (Q : forall a, In a ((g ++ [x]) ++ [y]) -> kx a = kx x).
        { intros a' Ia'. apply in_app_iff in Ia' as [Ia'|[<-|[]]]; [|auto]. apply Hg; [exact Ia'|apply in_or_app; right; left; auto]. }
        rewrite (Q a Ia), (Q b Ib). reflexivity.
      * intros a b Ia Ib. apply Hp; auto. rewrite <- app_assoc in Ib. exact Ib.
      * exists es'. split; [exact F|]. split; auto. rewrite <- app_assoc in C1, C2. auto.
    + destruct (set_regions_ok (crossall (map (@cr_cross nat) (pre ++ g ++ [x])) r0) (g ++ [x]) es W) as (es1 & F1 & W1 & Cl1).
      { intros y Iy. apply OK. rewrite ES1. apply in_or_app; right; apply in_or_app; auto. }
      rewrite F1. cbn [bind].
      assert (Hx : forall a, In a (g ++ [x]) -> kx a = kx x).
      { intros a Ia. apply Hg; [exact Ia|apply in_or_app; right; left; auto]. }
      assert (Gt : forall y, In y l -> (kx x < kx y)%Qc).
      { rewrite ES in SS. rewrite app_assoc in SS. apply SS_app in SS as [SL _]. inversion SL as [|? ? SL' Fx]; subst. rewrite Forall_forall in Fx.
        intros y Iy. destruct l as [|z l]; [destruct Iy|]. pose proof (Fx z (or_introl eq_refl)) as A.
        assert (B : kx z <> kx x). { intros Q. rewrite (proj2 (same_iff x z) Q) in Ov. discriminate. }
        assert (D : (kx x < kx z)%Qc). { unfold kle in A. destruct (Qc_trichotomy (kx x) (kx z)) as [[T|T]|T]; [auto|congruence|exfalso; qcl]. }
        destruct Iy as [<-|Iy]; auto. inversion SL' as [|? ? _ F']; subst. rewrite Forall_forall in F'. specialize (F' y Iy). unfold kle in F'. qcl. }
      destruct (IH [] (pre ++ g ++ [x]) es1 (crossall (map (@cr_cross nat) (pre ++ g ++ [x])) r0)) as (es' & F & W' & C1 & C2).
      * rewrite ES1, <- !app_assoc. reflexivity.
      * exact W1.
      * rewrite app_nil_r. reflexivity.
      * intros Q; contradiction.
      * cbn [app]. destruct l as [|z l]; [intros a b []|]. intros a b [<-|[]] [<-|[]]. reflexivity.
      * cbn [app]. intros a b Ia Ib Q. apply in_app_iff in Ia as [Ia|Ia].
        -- apply (Hp a b Ia); auto. apply in_or_app; right; right; auto.
        -- pose proof (Hx a Ia) as Q1. pose proof (Gt b Ib) as Q2. rewrite <- Q, Q1 in Q2. destruct (Qclt_not_eq _ _ Q2 eq_refl).
      * exists es'. split; [exact F|]. split; auto. cbn [app] in C1, C2.
        assert (Eg : forall c, inb (map (@cr_cross nat) (g ++ x :: l)) c = inb (map (@cr_cross nat) (g ++ [x])) c || inb (map (@cr_cross nat) l) c).
        { intros c. rewrite <- inb_app, <- map_app, <- app_assoc. reflexivity. }
        split.
        -- intros c Ic. rewrite Eg in Ic. apply orb_false_iff in Ic as [I1 I2]. rewrite (C1 c I2), Cl1, I1. reflexivity.
        -- intros y Iy. replace (g ++ x :: l) with ((g ++ [x]) ++ l) in Iy by (rewrite <- app_assoc; reflexivity).
           apply in_app_iff in Iy as [Iy|Iy]; [|auto].
           assert (I1 : inb (map (@cr_cross nat) (g ++ [x])) (cr_cross y) = true) by (apply inb_spec; apply in_map; auto).
           assert (I2 : inb (map (@cr_cross nat) l) (cr_cross y) = false).
           { destruct (inb (map (@cr_cross nat) l) (cr_cross y)) eqn:Q; auto. exfalso. apply inb_spec in Q. apply inb_spec in I1.
             rewrite ES1, !map_app in ND. clear - ND Q I1. rewrite map_app in I1. induction (map (@cr_cross nat) pre) as [|a p IHp]; [|inversion ND; auto].
             cbn [app] in ND. induction (map (@cr_cross nat) g ++ map (@cr_cross nat) [x]) as [|a q IHq]; [destruct I1|].
             inversion ND as [|? ? Na ND']; subst. destruct I1 as [I1|I1]; [|auto]. apply Na. rewrite I1. apply in_or_app; auto. }
           rewrite (C1 _ I2), Cl1, I1. f_equal. unfold lower. f_equal. rewrite ES1. rewrite !filter_app.
           rewrite <- !app_assoc. rewrite (filter_none2 _ l), app_nil_r.
           ++ f_equal; symmetry.
              ** apply filter_all. intros a Ia. apply qleb_iff. rewrite (Hx y Iy). rewrite ES in SS. apply SS_app in SS as [_ A]. apply (A a x); auto. apply in_or_app; right; left; auto.
              ** rewrite <- filter_app. apply filter_all. intros a Ia. apply qleb_iff. rewrite (Hx y Iy), (Hx a Ia). apply Qcle_refl.
           ++ intros a Ia. pose proof (Gt a Ia) as A. rewrite (Hx y Iy). destruct (qleb_spec (kx a) (kx x)) as [B|B]; auto. exfalso. qcl.
Qed.
End Labels.
End Sort.
