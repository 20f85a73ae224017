(** Polygon assembly: placing the rings. *)
Require Import List String Bool Arith Lia Permutation.
From Verif Require Import Base Scalar M_Events M_Geo M_LineOrPoint M_Slab M_MonoPoly M_Rings M_Op M_Laminar S_Laminar P_Rings S_Op.
Import Datatypes.
Import ListNotations.
Local Open Scope nat_scope.

Lemma numbered_nth : forall {X} (l : list X) k, nth_error (numbered l) k = match nth_error l k with Some x => Some (k, x) | None => None end.
Proof.
  intros X l k. unfold numbered.
  assert (G : forall (l : list X) s k, nth_error (combine (seq s (List.length l)) l) k = match nth_error l k with Some x => Some (s + k, x) | None => None end).
  { clear. induction l as [|x l IH]; intros s k; [destruct k; reflexivity|]. cbn [List.length seq combine]. destruct k as [|k]; cbn [nth_error].
    - rewrite Nat.add_0_r. reflexivity.
    - rewrite IH. replace (S s + k) with (s + S k) by lia. reflexivity. }
  apply (G l 0).
Qed.
Lemma numbered_in : forall {X} (l : list X) k x, In (k, x) (numbered l) <-> nth_error l k = Some x.
Proof.
  intros X l k x. split.
  - intros I. apply In_nth_error in I as (j & J). rewrite numbered_nth in J. destruct (nth_error l j) eqn:E; [|discriminate]. injection J as <- <-. exact E.
  - intros E. apply (nth_error_In _ k). rewrite numbered_nth, E. reflexivity.
Qed.
Lemma numbered_firstn : forall {X} (l : list X) k x, nth_error l k = Some x -> firstn (S k) (numbered l) = firstn k (numbered l) ++ [(k, x)].
Proof.
  intros X l k x E. assert (G : forall (m : list (nat * X)) j y, nth_error m j = Some y -> firstn (S j) m = firstn j m ++ [y]).
  { clear. induction m as [|z m IH]; intros [|j] y Q; try discriminate; cbn [nth_error firstn app] in *; [injection Q as ->; reflexivity|]. rewrite <- (IH j y Q). reflexivity. }
  apply G. rewrite numbered_nth, E. reflexivity.
Qed.
Lemma numbered_snd : forall {X} (l : list X), map snd (numbered l) = l.
Proof.
  intros X l. unfold numbered. generalize 0. induction l as [|x l IH]; intros s; [reflexivity|]. cbn [List.length seq combine map snd]. rewrite IH. reflexivity.
Qed.
Lemma numbered_length : forall {X} (l : list X), List.length (numbered l) = List.length l.
Proof. intros X l. rewrite <- (map_length snd), numbered_snd. reflexivity. Qed.

Section Place.
Variables (rs : list ring) (parents : list nat).
Hypothesis Cl : forall r, In r rs -> ls_is_closed (r_coords r) = true.
Hypothesis Pa : parents_ok rs parents.
Let n := List.length rs.

Definition upto_holes (i k : nat) : list (list pt) :=
  map (fun kr => r_coords (snd kr)) (filter (fun kr => r_hole (snd kr) && (nth (fst kr) parents 0 =? i)) (firstn k (numbered rs))).
Definition placed (k : nat) (ps : list (option polygon)) : Prop :=
  List.length ps = n /\
  forall i r, nth_error rs i = Some r -> exists o, nth_error ps i = Some o /\
    match o with
    | None => (k <= i \/ r_hole r = true) /\ upto_holes i k = []
    | Some p => r_hole r = false /\ p = mkPolygon (r_coords r) (upto_holes i k)
    end.
Lemma holes_step : forall k r i, nth_error rs k = Some r -> upto_holes i (S k) = upto_holes i k ++ (if r_hole r && (nth k parents 0 =? i) then [r_coords r] else []).
Proof.
  intros k r i E. unfold upto_holes. rewrite (numbered_firstn rs k r E), filter_app, map_app. cbn [filter fst snd]. destruct (r_hole r && (nth k parents 0 =? i)); reflexivity.
Qed.
Lemma close_closed : forall r, In r rs -> ls_close (r_coords r) = r_coords r.
Proof. intros r I. unfold ls_close. rewrite (Cl r I). reflexivity. Qed.
Lemma at_ok : forall k ps i r, placed k ps -> nth_error rs i = Some r -> r_hole r = false -> polygon_at rs ps i = Ok (mkPolygon (r_coords r) (upto_holes i k)).
Proof.
  intros k ps i r (_ & P) E Hr. destruct (P i r E) as (o & Eo & Q). unfold polygon_at. rewrite Eo. cbn [expect bind]. destruct o as [p|].
  - destruct Q as [_ ->]. reflexivity.
  - destruct Q as [_ Q]. unfold ring_at. rewrite E. cbn [expect bind]. unfold polygon_new. rewrite close_closed by (eapply nth_error_In; eauto). rewrite Q. reflexivity.
Qed.
Lemma place_step : forall k r ps, placed k ps -> nth_error rs k = Some r -> exists ps',
  (if r_hole r then
     let* j := expect (nth_error parents k) "laminar.rs:88 index out of bounds" in
     let* p := polygon_at rs ps j in
     Ok (list_set j (Some (interiors_push p (r_coords r))) ps)
   else
     let* p := polygon_at rs ps k in
     Ok (list_set k (Some p) ps)) = Ok ps' /\ placed (S k) ps'.
Proof.
  intros k r ps P E. pose proof P as (Ln & Pn). assert (Lk : k < n) by (apply nth_error_Some; congruence). destruct (r_hole r) eqn:Hr.
  - destruct Pa as [Lp Pp]. destruct (Pp k r E Hr) as (ex & Ee & He). set (j := nth k parents 0) in *.
    assert (Ej : nth_error parents k = Some j) by (apply nth_error_nth'; unfold n in Lk; lia). rewrite Ej. cbn [expect bind].
    rewrite (at_ok k ps j ex P Ee He). cbn [bind]. eexists. split; [reflexivity|]. split; [rewrite set_length; exact Ln|].
    intros i r' Er'. rewrite set_nth. rewrite (holes_step k r i E), Hr. cbn [andb]. fold j. destruct (Nat.eqb_spec i j) as [->|N].
    + rewrite Nat.eqb_refl. rewrite Ln, (proj2 (Nat.ltb_lt j n)) by (apply nth_error_Some; congruence). cbn [andb]. eexists. split; [reflexivity|]. assert (r' = ex) by congruence. subst r'. split; [exact He|].
      unfold interiors_push. cbn [pg_exterior pg_interiors]. rewrite close_closed by (eapply nth_error_In; eauto). reflexivity.
    + destruct (Nat.eqb_spec j i) as [Q|_]; [congruence|]. cbn [andb]. rewrite app_nil_r. destruct (Pn i r' Er') as (o & Eo & Q). exists o. split; [exact Eo|]. destruct o; [exact Q|].
      destruct Q as [[Q|Q] Q']; split; auto. destruct (Nat.eq_dec i k) as [->|]; [right; congruence|left; lia].
  - rewrite (at_ok k ps k r P E Hr). cbn [bind]. eexists. split; [reflexivity|]. split; [rewrite set_length; exact Ln|].
    intros i r' Er'. rewrite set_nth. rewrite (holes_step k r i E), Hr. cbn [andb]. rewrite app_nil_r. destruct (Nat.eqb_spec i k) as [->|N].
    + rewrite Ln, (proj2 (Nat.ltb_lt k n)) by exact Lk. cbn [andb]. eexists. split; [reflexivity|]. assert (r' = r) by congruence. subst r'. auto.
    + destruct (Pn i r' Er') as (o & Eo & Q). exists o. split; [exact Eo|]. destruct o; [exact Q|]. destruct Q as [[Q|Q] Q']; split; auto. left; lia.
Qed.
Lemma place_all : forall l k ps, placed k ps -> skipn k rs = l -> k <= n -> exists ps', place_rings rs parents k l ps = Ok ps' /\ placed n ps'.
Proof.
  induction l as [|r l IH]; intros k ps P Sk Lk.
  - exists ps. split; [reflexivity|]. assert (k = n); [|subst k; exact P]. apply (f_equal (@List.length ring)) in Sk. rewrite skipn_length in Sk. cbn in Sk. fold n in Sk. lia.
  - assert (E : nth_error rs k = Some r).
    { clear - Sk. revert k Sk. induction rs as [|x l' IH]; intros [|k] Sk; try discriminate; cbn [skipn nth_error] in *; [injection Sk as -> _; reflexivity|auto]. }
    assert (Sk' : skipn (S k) rs = l).
    { clear - Sk. revert k Sk. induction rs as [|x l' IH]; intros [|k] Sk; try discriminate; cbn [skipn] in *; [injection Sk as _ Sk; exact Sk|]. apply IH; auto. }
    cbn [place_rings]. destruct (place_step k r ps P E) as (ps' & E1 & P1). rewrite E1. cbn [bind]. apply IH; auto. apply nth_error_Some. congruence.
Qed.
Lemma nth_ext_map : forall (ps : list (option polygon)) (f : nat * ring -> option polygon), List.length ps = n ->
  (forall i r, nth_error rs i = Some r -> nth_error ps i = Some (f (i, r))) -> ps = map f (numbered rs).
Proof.
  intros ps f L E. apply (nth_ext _ _ None (f (0, mkRing [] false))); [rewrite map_length, numbered_length; exact L|]. intros i Li.
  rewrite map_nth. assert (Q : nth_error rs i <> None) by (apply nth_error_Some; fold n; lia). destruct (nth_error rs i) as [r|] eqn:Er; [|congruence].
  specialize (E i r Er). rewrite (nth_error_nth _ _ _ E). f_equal. symmetry. apply nth_error_nth. rewrite numbered_nth, Er. reflexivity.
Qed.
Theorem build_ok : build_polygons rs parents = Ok (polygons_of rs parents).
Proof.
  unfold build_polygons. destruct (place_all rs 0 (repeat None (List.length rs))) as (ps & E & L & P); [|reflexivity|lia|].
  - split; [apply repeat_length|]. intros i r Er. exists None. split; [apply nth_error_repeat; apply nth_error_Some; congruence|]. split; [left; lia|reflexivity].
  - rewrite E. cbn [bind]. f_equal.
    assert (Q : ps = map (fun ir => if r_hole (snd ir) then None else Some (mkPolygon (r_coords (snd ir)) (holes_of rs parents (fst ir)))) (numbered rs)).
    { apply nth_ext_map; [exact L|]. intros i r Er. destruct (P i r Er) as (o & Eo & Q). rewrite Eo. f_equal. cbn [fst snd].
      assert (U : upto_holes i n = holes_of rs parents i) by (unfold upto_holes, holes_of, n; rewrite <- numbered_length, firstn_all; reflexivity). destruct o as [p|].
      - destruct Q as [-> ->]. rewrite U. reflexivity.
      - destruct Q as [[Q|Q] _]; [|rewrite Q; reflexivity]. exfalso. assert (i < n) by (apply nth_error_Some; congruence). lia. }
    rewrite Q. clear. unfold polygons_of. induction (numbered rs) as [|[i r] l IH]; [reflexivity|]. cbn [map flat_map filter fst snd]. rewrite IH. destruct (r_hole r); reflexivity.
Qed.

(** No ring is lost and none is used twice. *)
Theorem rings_placed : Permutation (rings_in (polygons_of rs parents)) (map r_coords rs).
Proof.
  assert (S1 : rings_in (polygons_of rs parents) = flat_map (fun ir => r_coords (snd ir) :: holes_of rs parents (fst ir)) (filter (fun ir => negb (r_hole (snd ir))) (numbered rs))).
  { unfold rings_in, polygons_of. rewrite flat_map_concat_map, map_map, <- flat_map_concat_map. reflexivity. }
  rewrite S1. rewrite <- (numbered_snd rs) at 2. rewrite map_map.
  assert (G : forall (ex ho : list (nat * ring)), NoDup (map fst ex) -> (forall kr, In kr ho -> r_hole (snd kr) = true /\ In (nth (fst kr) parents 0) (map fst ex)) ->
    Permutation (flat_map (fun ir => r_coords (snd ir) :: map (fun kr => r_coords (snd kr)) (filter (fun kr => r_hole (snd kr) && (nth (fst kr) parents 0 =? fst ir)) ho)) ex)
      (map (fun kr => r_coords (snd kr)) ex ++ map (fun kr => r_coords (snd kr)) ho)).
  { induction ex as [|[i r] ex IH]; intros ho N In_.
    - destruct ho as [|kr ho]; [constructor|]. destruct (In_ kr (or_introl eq_refl)) as [_ []].
    - cbn [flat_map map app fst snd]. apply perm_skip. cbn [map fst] in N. apply NoDup_cons_iff in N as [N1 N2].
      set (f := fun kr : nat * ring => r_hole (snd kr) && (nth (fst kr) parents 0 =? i)).
      assert (Sp : Permutation ho (filter f ho ++ filter (fun kr => negb (f kr)) ho)).
      { clear. induction ho as [|x l IH]; [constructor|]. cbn [filter]. destruct (f x); cbn [negb app]; [constructor; exact IH|]. apply Permutation_cons_app. exact IH. }
      transitivity (map (fun kr => r_coords (snd kr)) (filter f ho) ++ (map (fun kr => r_coords (snd kr)) ex ++ map (fun kr => r_coords (snd kr)) (filter (fun kr => negb (f kr)) ho))).
      + apply Permutation_app_head. rewrite <- (IH (filter (fun kr => negb (f kr)) ho) N2).
        * assert (FE : forall l, (forall ir, In ir l -> fst ir <> i) ->
            flat_map (fun ir => r_coords (snd ir) :: map (fun kr => r_coords (snd kr)) (filter (fun kr => r_hole (snd kr) && (nth (fst kr) parents 0 =? fst ir)) ho)) l =
            flat_map (fun ir => r_coords (snd ir) :: map (fun kr => r_coords (snd kr)) (filter (fun kr => r_hole (snd kr) && (nth (fst kr) parents 0 =? fst ir)) (filter (fun kr => negb (f kr)) ho))) l).
          { induction l as [|ir l IHl]; intros Nl; [reflexivity|]. cbn [flat_map]. rewrite IHl by (intros; apply Nl; right; auto). f_equal. f_equal. f_equal.
            assert (Ni : fst ir <> i) by (apply Nl; left; auto). clear - Ni. induction ho as [|x l IH]; [reflexivity|]. cbn [filter]. unfold f. destruct (r_hole (snd x)) eqn:Hx; cbn [andb negb].
            - destruct (Nat.eqb_spec (nth (fst x) parents 0) (fst ir)) as [E1|E1]; destruct (Nat.eqb_spec (nth (fst x) parents 0) i) as [E2|E2]; try congruence; cbn [negb filter]; rewrite ?Hx; cbn [andb].
              + rewrite (proj2 (Nat.eqb_eq _ _) E1). f_equal. exact IH.
              + exact IH.
              + rewrite (proj2 (Nat.eqb_neq _ _) E1). exact IH.
            - cbn [filter]. rewrite Hx. cbn [andb]. exact IH. }
          rewrite FE; [reflexivity|]. intros ir I Q. apply N1. rewrite <- Q. apply in_map. exact I.
        * intros kr I. apply filter_In in I as [I Nf]. destruct (In_ kr I) as [Hk Ik]. split; [exact Hk|]. cbn [map fst] in Ik. destruct Ik as [Q|Ik]; [|exact Ik].
          exfalso. unfold f in Nf. rewrite Hk, <- Q, Nat.eqb_refl in Nf. discriminate.
      + transitivity (map (fun kr => r_coords (snd kr)) ex ++ map (fun kr => r_coords (snd kr)) (filter f ho ++ filter (fun kr => negb (f kr)) ho)); [|apply Permutation_app_head, Permutation_map, Permutation_sym; exact Sp]. rewrite map_app, !app_assoc. apply Permutation_app_tail. apply Permutation_app_comm. }
  set (X := filter (fun ir : nat * ring => negb (r_hole (snd ir))) (numbered rs)). set (Y := filter (fun kr : nat * ring => r_hole (snd kr)) (numbered rs)).
  transitivity (flat_map (fun ir => r_coords (snd ir) :: map (fun kr => r_coords (snd kr)) (filter (fun kr => r_hole (snd kr) && (nth (fst kr) parents 0 =? fst ir)) Y)) X).
  - assert (FE : forall i, filter (fun kr : nat * ring => r_hole (snd kr) && (nth (fst kr) parents 0 =? i)) (numbered rs) = filter (fun kr => r_hole (snd kr) && (nth (fst kr) parents 0 =? i)) Y).
    { intros i. unfold Y. clear. induction (numbered rs) as [|x l IH]; [reflexivity|]. cbn [filter]. destruct (r_hole (snd x)) eqn:Hx; cbn [andb]; [cbn [filter]; rewrite Hx; cbn [andb]; rewrite IH; reflexivity|exact IH]. }
    unfold holes_of. clearbody X. clear - FE. induction X as [|ir l IH]; [reflexivity|]. cbn [flat_map]. rewrite FE. apply Permutation_app_head. exact IH.
  - rewrite G.
    + unfold X, Y. rewrite <- map_app. apply Permutation_map. clear. induction (numbered rs) as [|x l IH]; [constructor|]. cbn [filter]. destruct (r_hole (snd x)); cbn [negb app].
      * symmetry. apply Permutation_cons_app. symmetry. exact IH.
      * constructor. exact IH.
    + unfold X. assert (N : NoDup (map fst (numbered rs))).
      { unfold numbered. assert (Q : forall s, map fst (combine (seq s (List.length rs)) rs) = seq s (List.length rs)).
        { clear. induction rs as [|x l IH]; intros s; [reflexivity|]. cbn [List.length seq combine map fst]. rewrite IH. reflexivity. }
        rewrite Q. apply seq_NoDup. }
      clear - N. induction (numbered rs) as [|x l IH]; [constructor|]. cbn [map] in N. apply NoDup_cons_iff in N as [N1 N2]. cbn [filter]. destruct (negb (r_hole (snd x))); [|auto].
      cbn [map]. constructor; auto. intros I. apply N1. apply in_map_iff in I as (y & <- & I). apply filter_In in I as [I _]. apply in_map. exact I.
    + intros [k r] I. unfold Y in I. apply filter_In in I as [I Hk]. split; [exact Hk|]. apply numbered_in in I. cbn [fst snd] in *. destruct (proj2 Pa k r I Hk) as (ex & Ee & He).
      apply in_map_iff. exists (nth k parents 0, ex). split; [reflexivity|]. unfold X. apply filter_In. split; [apply numbered_in; exact Ee|]. cbn [snd]. rewrite He. reflexivity.
Qed.
End Place.
