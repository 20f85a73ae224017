(** Polygon assembly: the polygons that contain a point. *)
Require Import List String Bool Arith Lia Permutation.
From Verif Require Import Base Scalar M_Events M_Geo M_LineOrPoint M_MonoPoly M_Rings.
From Verif Require Import S_Mono S_Op S_Rings P_Rings S_Laminar P_Laminar P_LamRun P_LamGeo P_LamSpec.
Import ListNotations.
Local Open Scope nat_scope.

Lemma count_le : forall (f g : nat -> bool) l, (forall x, In x l -> f x = true -> g x = true) -> List.length (filter f l) <= List.length (filter g l).
Proof.
  intros f g l. induction l as [|x l IH]; intros F; [reflexivity|]. cbn [filter]. pose proof (F x (or_introl eq_refl)) as Fx.
  assert (IH' : List.length (filter f l) <= List.length (filter g l)) by (apply IH; intros y I; apply F; right; auto).
  destruct (f x); [rewrite Fx by auto; cbn; lia|destruct (g x); cbn; lia].
Qed.
Lemma count_lt : forall (f g : nat -> bool) l x, (forall y, In y l -> f y = true -> g y = true) -> In x l -> f x = false -> g x = true ->
  List.length (filter f l) < List.length (filter g l).
Proof.
  intros f g l. induction l as [|y l IH]; intros x F I Fx Gx; [destruct I|]. cbn [filter]. pose proof (F y (or_introl eq_refl)) as Fy.
  assert (F' : forall z, In z l -> f z = true -> g z = true) by (intros z Iz; apply F; right; auto). pose proof (count_le f g l F') as Le.
  destruct I as [->|I]; [rewrite Fx, Gx; cbn; lia|]. pose proof (IH x F' I Fx Gx) as Lt. destruct (f y); [rewrite Fy by auto; cbn; lia|destruct (g y); cbn; lia].
Qed.
Lemma filter_at : forall {X} (p : nat * X -> bool) i (l : list X),
  List.length (filter (fun kx => (fst kx =? i) && p kx) (numbered l)) = match nth_error l i with Some x => if p (i, x) then 1 else 0 | None => 0 end.
Proof.
  intros X p i l. unfold numbered. assert (G : forall l s i, (forall k, k < s -> True) ->
    List.length (filter (fun kx => (fst kx =? s + i) && p kx) (combine (seq s (List.length l)) l)) = match nth_error l i with Some x => if p (s + i, x) then 1 else 0 | None => 0 end).
  { clear. induction l as [|x l IH]; intros s i _; [destruct i; reflexivity|]. cbn [List.length seq combine filter fst]. destruct i as [|i].
    - rewrite Nat.add_0_r, Nat.eqb_refl. cbn [andb nth_error]. assert (Z : filter (fun kx => (fst kx =? s) && p kx) (combine (seq (S s) (List.length l)) l) = []).
      { destruct (filter _ _) as [|[k y] f] eqn:F; auto. exfalso. assert (I : In (k, y) ((k, y) :: f)) by (left; auto). rewrite <- F in I. apply filter_In in I as [I1 I2].
        apply in_combine_l in I1. apply in_seq in I1. cbn [fst] in I2. destruct (Nat.eqb_spec k s); [lia|discriminate]. }
      destruct (p (s, x)); cbn [List.length]; rewrite Z; reflexivity.
    - destruct (Nat.eqb_spec s (s + S i)); [lia|]. cbn [andb nth_error]. replace (s + S i) with (S s + i) by lia. apply IH. auto. }
  apply (G l 0). auto.
Qed.
Lemma filter_map_length : forall {X Y} (f : X -> Y) (p : Y -> bool) l, List.length (filter p (map f l)) = List.length (filter (fun x => p (f x)) l).
Proof. intros X Y f p l. induction l as [|x l IH]; [reflexivity|]. cbn [map filter]. destruct (p (f x)); cbn; lia. Qed.
Lemma filter_filter_length : forall {X} (p r : X -> bool) l, List.length (filter p (filter r l)) = List.length (filter (fun x => r x && p x) l).
Proof. intros X p r l. induction l as [|x l IH]; [reflexivity|]. cbn [filter]. destruct (r x); cbn [filter andb]; [destruct (p x); cbn; lia|auto]. Qed.

Section Count.
Variables (rs : list ring) (parents : list nat) (J : nat -> nat -> bool).
Let N := List.length rs.
Hypothesis Gd : forall R, R < N -> good_ring rs true J R (nth R parents 0).
Hypothesis JR : forall R, J R R = false.
Hypothesis Ja : forall R R', R <> R' -> R < N -> R' < N -> J R R' = true -> J R' R = true -> False.
Notation hole := (hole rs).
Notation coords := (coords rs).

(** From a ring outwards, there is one just inside any given ring around it. *)
Lemma just_inside : forall i R, i < N -> J i R = true -> exists h, (h = i \/ J i h = true) /\ h < N /\ J h R = true /\ hole h = negb (hole R) /\ (hole h = true -> nth h parents 0 = R).
Proof.
  intros i R. remember (List.length (filter (J i) (seq 0 N))) as k eqn:Ek. revert i Ek.
  induction k as [k IH] using lt_wf_ind. intros i Ek Li Ji. destruct (Gd i Li) as [_ G]. destruct (G eq_refl) as (inn & Ne & Dp & Ho).
  destruct inn as [j|]; [|rewrite Ne in Ji; discriminate]. destruct (Dp j eq_refl) as [Lj Hj]. cbn [nest] in Ne.
  pose proof Ji as Jj. rewrite Ne in Jj. apply orb_true_iff in Jj as [Jj|Jj].
  - apply Nat.eqb_eq in Jj. subst j. exists i. split; auto. split; auto. split; auto. split; [rewrite Hj, negb_involutive; auto|]. intros Hi. specialize (Ho Hi). injection Ho as Ho. auto.
  - destruct (IH (List.length (filter (J j) (seq 0 N)))) with (i := j) as (h & D & Lh & Jh & Hh & P); auto.
    + subst k. apply (count_lt (J j) (J i) (seq 0 N) j); [|apply in_seq; lia|apply JR|rewrite Ne, Nat.eqb_refl; reflexivity].
      intros y _ Jy. rewrite Ne, Jy. apply orb_true_r.
    + exists h. split; [right|auto]. rewrite Ne. destruct D as [->|D]; [rewrite Nat.eqb_refl; auto|rewrite D; apply orb_true_r].
Qed.

Section Point.
Variables (q : pt) (inn : option nat).
Hypothesis In_ : forall R, ring_in (coords R) q = nest J inn R.
Hypothesis Ii : forall i, inn = Some i -> i < N.

Lemma holes_in : forall R, forallb (fun h => negb (ring_in h q)) (holes_of rs parents R) = true <->
  forall h, h < N -> hole h = true -> nth h parents 0 = R -> ring_in (coords h) q = false.
Proof.
  intros R. unfold holes_of. rewrite forallb_forall. split.
  - intros F h L Hh P. destruct (nth_error rs h) as [r|] eqn:Q; [|apply nth_error_None in Q; unfold N in L; lia].
    unfold P_LamGeo.coords. unfold P_LamRun.hole in Hh. rewrite Q in *. apply negb_true_iff. apply F. apply in_map_iff. exists (h, r). split; auto. apply filter_In. split; [apply numbered_in; auto|].
    cbn [fst snd]. rewrite Hh, P, Nat.eqb_refl. reflexivity.
  - intros F x I. apply in_map_iff in I as ([h r] & <- & I). apply filter_In in I as [I1 I2]. apply numbered_in in I1. cbn [fst snd] in *. apply andb_true_iff in I2 as [I2 I3]. apply Nat.eqb_eq in I3.
    assert (L : h < N) by (apply nth_error_Some; congruence). specialize (F h L). unfold P_LamGeo.coords, P_LamRun.hole in F. rewrite I1 in F. rewrite F; auto.
Qed.
Lemma polygon_iff : forall R r, nth_error rs R = Some r -> r_hole r = false ->
  (polygon_in (mkPolygon (r_coords r) (holes_of rs parents R)) q = true <-> inn = Some R).
Proof.
  intros R r Q Hr. assert (L : R < N) by (apply nth_error_Some; congruence). unfold polygon_in. cbn [pg_exterior pg_interiors]. rewrite andb_true_iff, holes_in.
  assert (Hn : hole R = false) by (unfold P_LamRun.hole; rewrite Q; auto).
  pose proof (In_ R) as IR. unfold P_LamGeo.coords in IR. rewrite Q in IR. rewrite IR. split.
  - intros [A B]. destruct inn as [i|]; [|discriminate]. cbn [nest] in A, In_. destruct (Nat.eqb_spec R i) as [->|Ne]; [reflexivity|]. exfalso. cbn [orb] in A.
    destruct (just_inside i R (Ii i eq_refl) A) as (h & D & Lh & Jh & Hh & P). rewrite Hn in Hh. cbn in Hh. specialize (P Hh). specialize (B h Lh Hh P). rewrite In_ in B.
    apply orb_false_iff in B as [B1 B2]. apply Nat.eqb_neq in B1. destruct D; congruence.
  - intros ->. cbn [nest] in *. rewrite Nat.eqb_refl. split; [reflexivity|]. intros h Lh Hh P. rewrite In_. destruct (Nat.eqb_spec h R) as [->|Ne]; [congruence|]. cbn [orb].
    destruct (J R h) eqn:Jh; auto. exfalso. destruct (Gd h Lh) as [_ G]. destruct (G eq_refl) as (inn' & Ne' & _ & Ho). specialize (Ho Hh).
    apply (Ja h R Ne Lh L); auto. rewrite Ne', Ho, P. cbn [nest]. rewrite Nat.eqb_refl. reflexivity.
Qed.
Theorem polygons_at : List.length (filter (fun p => polygon_in p q) (polygons_of rs parents)) =
  if match inn with Some i => negb (hole i) | None => false end then 1 else 0.
Proof.
  unfold polygons_of. rewrite filter_map_length, filter_filter_length.
  rewrite (filter_ext_in _ (fun kx => match inn with Some i => (fst kx =? i) && negb (r_hole (snd kx)) | None => false end)).
  - destruct inn as [i|].
    + rewrite (filter_at (fun kx => negb (r_hole (snd kx)))). cbn [snd]. unfold P_LamRun.hole. destruct (nth_error rs i) as [r|] eqn:Q; [reflexivity|].
      apply nth_error_None in Q. specialize (Ii i eq_refl). unfold N in Ii. lia.
    + induction (numbered rs) as [|x l IH]; auto.
  - intros [k r] I. apply numbered_in in I. cbn [fst snd]. destruct (r_hole r) eqn:Hr; cbn [negb andb]; [destruct inn; [rewrite andb_false_r|]; reflexivity|].
    pose proof (polygon_iff k r I Hr) as P. destruct (polygon_in _ q).
    + rewrite (proj1 P eq_refl), Nat.eqb_refl. reflexivity.
    + destruct inn as [i|]; auto. destruct (Nat.eqb_spec k i) as [->|]; [|reflexivity]. discriminate (proj2 P eq_refl).
Qed.
End Point.
End Count.
