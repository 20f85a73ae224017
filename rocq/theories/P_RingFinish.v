Require Import List String Bool Arith Lia Permutation Sorted.
From Verif Require Import Base Scalar M_Events M_Geo M_LineOrPoint M_Slab S_Geo P_Geo M_MonoPoly S_Mono P_Mono M_Rings S_Rings P_Rings P_RingWalk.
Import ListNotations.
Local Open Scope list_scope.

(** ** Walks over linked chains *)
Definition closed (cs : list chain) : Prop :=
  forall i c f, nth_error cs i = Some c -> ch_items c <> [] ->
    exists b d, next c f = Some b /\ nth_error cs (k_idx b) = Some d /\ ch_items d <> [] /\
      next d (k_front b) = Some (mkLink i f) /\ out_w c f = winding_inverse (out_w d (k_front b)).
Definition entered (cs : list chain) (w : winding) (l : link) : Prop :=
  exists c, nth_error cs (k_idx l) = Some c /\ ch_items c <> [] /\ out_w c (negb (k_front l)) = w.
Definition step (cs : list chain) (l l' : link) : Prop :=
  exists c, nth_error cs (k_idx l) = Some c /\ next c (negb (k_front l)) = Some l'.
Fixpoint path (cs : list chain) (l : link) (ls : list link) (lend : link) : Prop :=
  match ls with
  | [] => l = lend
  | x :: ls' => x = l /\ exists l', step cs l l' /\ path cs l' ls' lend
  end.
Lemma out_neg : forall c f, out_w c (negb f) = winding_inverse (out_w c f).
Proof. intros c []; unfold out_w; simpl; auto. rewrite inv_inv. auto. Qed.
Lemma entered_step : forall cs w l, closed cs -> entered cs w l -> exists l', step cs l l' /\ entered cs w l'.
Proof.
  intros cs w l C [c [H [N W]]]. destruct (C _ _ (negb (k_front l)) H N) as [b [d [A [B [E [F G]]]]]].
  exists b. split; [exists c; auto|]. exists d. split; auto. split; auto. rewrite out_neg, <- G. auto.
Qed.
Lemma entered_uniq : forall cs w l l', entered cs w l -> entered cs w l' -> k_idx l = k_idx l' -> l = l'.
Proof.
  intros cs w [i f] [i' f'] [c [H [N W]]] [c' [H' [N' W']]] E. simpl in *. subst i'. rewrite H in H'. injection H' as <-. f_equal.
  destruct f, f'; auto; rewrite <- W in W'; unfold out_w in W'; simpl in W'; destruct (ch_winding c); discriminate.
Qed.
Lemma step_back : forall cs w l l', closed cs -> entered cs w l -> step cs l l' ->
  exists d, nth_error cs (k_idx l') = Some d /\ next d (k_front l') = Some (mkLink (k_idx l) (negb (k_front l))).
Proof.
  intros cs w l l' C [c [H [N W]]] [c' [H' S]]. rewrite H in H'. injection H' as <-.
  destruct (C _ _ (negb (k_front l)) H N) as [b [d [A [B [E [F G]]]]]]. rewrite A in S. injection S as <-. eauto.
Qed.
Lemma step_inj : forall cs w l l1 l', closed cs -> entered cs w l -> entered cs w l1 -> step cs l l' -> step cs l1 l' -> l = l1.
Proof.
  intros cs w l l1 l' C E E1 S S1. destruct (step_back _ _ _ _ C E S) as [d [H N]]. destruct (step_back _ _ _ _ C E1 S1) as [d1 [H1 N1]].
  rewrite H in H1. injection H1 as <-. rewrite N in N1. injection N1 as A B. destruct l as [i f], l1 as [i1 f1]. simpl in *. subst.
  f_equal. destruct f, f1; auto; discriminate.
Qed.
Lemma step_fun : forall cs l a b, step cs l a -> step cs l b -> a = b.
Proof. intros cs l a b [c [H N]] [c' [H' N']]. congruence. Qed.
Lemma path_snoc : forall cs ls l x lend, path cs l ls x -> step cs x lend -> path cs l (ls ++ [x]) lend.
Proof.
  intros cs ls. induction ls as [|y ls IH]; intros l x lend P S; simpl in *.
  - subst. eauto.
  - destruct P as [-> [l' [S' P]]]. split; auto. exists l'. split; auto.
Qed.
Lemma path_pred : forall cs ls l x v, path cs l ls x -> In v (ls ++ [x]) -> v <> l -> exists u, In u ls /\ step cs u v.
Proof.
  intros cs ls. induction ls as [|y ls IH]; intros l x v P I N; simpl in *.
  - destruct I as [I|[]]. congruence.
  - destruct P as [-> [l' [S P]]]. destruct I as [I|I]; [congruence|]. destruct (link_dec v l') as [->|M].
    + exists l. auto.
    + destruct (IH l' x v P I M) as [u [A B]]. eauto.
Qed.
Lemma path_succ : forall cs ls l x v, path cs l ls x -> In v ls -> exists u, In u (ls ++ [x]) /\ step cs v u.
Proof.
  intros cs ls. induction ls as [|y ls IH]; intros l x v P I; simpl in *; [tauto|].
  destruct P as [-> [l' [S P]]]. destruct I as [<-|I].
  - exists l'. split; auto. right. destruct ls; simpl in *; [left; auto|]. destruct P as [-> _]. left. auto.
  - destruct (IH l' x v P I) as [u [A B]]. eauto.
Qed.
Lemma route_length : forall cs w ls, Forall (entered cs w) ls -> NoDup (map k_idx ls) -> (List.length ls <= List.length cs)%nat.
Proof.
  intros cs w ls E N. rewrite <- (map_length k_idx ls), <- (seq_length (List.length cs) 0). apply NoDup_incl_length; auto.
  intros i Hi. apply in_map_iff in Hi. destruct Hi as [l [<- Hl]]. rewrite Forall_forall in E. destruct (E l Hl) as [c [H _]].
  apply in_seq. split; [lia|]. simpl. apply nth_error_Some. congruence.
Qed.
Lemma route_from : forall n cs w l0 ls l, closed cs -> (List.length cs - List.length ls <= n)%nat -> entered cs w l0 ->
  path cs l0 ls l -> Forall (entered cs w) (ls ++ [l]) -> NoDup (map k_idx (ls ++ [l])) ->
  exists ls', path cs l0 ls' l0 /\ ls' <> [] /\ Forall (entered cs w) ls' /\ NoDup (map k_idx ls').
Proof.
  induction n as [|n IH]; intros cs w l0 ls l C L E0 P E N.
  - exfalso. pose proof (route_length _ _ _ E N) as K. rewrite app_length in K. simpl in K. lia.
  - assert (EL : entered cs w l) by (apply Forall_app in E; destruct E as [_ E]; inversion E; auto).
    destruct (entered_step _ _ _ C EL) as [l' [S E']]. pose proof (path_snoc _ _ _ _ _ P S) as P'.
    destruct (link_dec l' l0) as [->|NE].
    + exists (ls ++ [l]). split; auto. split; [destruct ls; discriminate|]. auto.
    + apply (IH cs w l0 (ls ++ [l]) l' C); auto.
      * rewrite app_length. simpl. lia.
      * apply Forall_app. split; auto.
      * rewrite map_app. simpl. apply NoDup_app_snoc; auto. intros I. apply in_map_iff in I. destruct I as [v [Ev Iv]].
        assert (v = l'). { apply (entered_uniq cs w); auto. rewrite Forall_forall in E. auto. } subst v.
        destruct (path_pred _ _ _ _ _ P Iv NE) as [u [Iu Su]].
        assert (u = l). { apply (step_inj cs w u l l' C); auto. apply Forall_app in E. destruct E as [E _]. rewrite Forall_forall in E. auto. }
        subst u. rewrite map_app in N. simpl in N. apply NoDup_remove_2 in N. apply N. rewrite app_nil_r. apply in_map. auto.
Qed.
Lemma route : forall cs w l0, closed cs -> entered cs w l0 ->
  exists ls, path cs l0 ls l0 /\ ls <> [] /\ Forall (entered cs w) ls /\ NoDup (map k_idx ls).
Proof.
  intros cs w l0 C E. apply (route_from (List.length cs) cs w l0 [] l0); simpl; auto.
  - lia.
  - repeat constructor. intros [].
Qed.

(** ** The inner loop *)
Definition travelled (cs : list chain) (l : link) : list pt :=
  match nth_error cs (k_idx l) with Some c => if k_front l then ch_items c else rev (ch_items c) | None => [] end.
Definition cleared (c : chain) : chain := mkChain (ch_winding c) [] (ch_nf c) (ch_nb c).
Definition clear1 (cs : list chain) (l : link) : list chain :=
  match nth_error cs (k_idx l) with Some c => list_set (k_idx l) (cleared c) cs | None => cs end.
Definition clear (ls : list link) (cs : list chain) : list chain := fold_left clear1 ls cs.
Lemma clear1_nth : forall cs l k, k <> k_idx l -> nth_error (clear1 cs l) k = nth_error cs k.
Proof. intros cs l k N. unfold clear1. destruct (nth_error cs (k_idx l)); auto. apply set_nth_ne. auto. Qed.
Lemma clear_length : forall ls cs, List.length (clear ls cs) = List.length cs.
Proof.
  induction ls as [|l ls IH]; intros cs; simpl; auto. rewrite IH. unfold clear1. destruct (nth_error cs (k_idx l)); auto. apply set_length.
Qed.
Lemma clear_nth_out : forall ls cs k, ~ In k (map k_idx ls) -> nth_error (clear ls cs) k = nth_error cs k.
Proof.
  induction ls as [|l ls IH]; intros cs k N; simpl in *; auto. rewrite IH by tauto. apply clear1_nth. intros ->. apply N. auto.
Qed.
Lemma clear_nth_in : forall ls cs k c, In k (map k_idx ls) -> nth_error (clear ls cs) k = Some c -> ch_items c = [].
Proof.
  induction ls as [|l ls IH]; intros cs k c I H; simpl in *; [tauto|].
  destruct (in_dec Nat.eq_dec k (map k_idx ls)) as [J|J].
  - eapply IH; eauto.
  - destruct I as [<-|I]; [|tauto]. rewrite clear_nth_out in H by auto. unfold clear1 in H.
    destruct (nth_error cs (k_idx l)) as [x|] eqn:E; [|congruence]. rewrite (set_nth_eq _ _ x) in H by auto. injection H as <-. reflexivity.
Qed.
Lemma path_clear : forall ls cs l lend x, path cs l ls lend -> ~ In (k_idx x) (map k_idx ls) -> path (clear1 cs x) l ls lend.
Proof.
  induction ls as [|y ls IH]; intros cs l lend x P N; simpl in *; auto. destruct P as [-> [l' [S P]]]. split; auto.
  exists l'. split; [|apply IH; auto]. destruct S as [c [H X]]. exists c. rewrite clear1_nth; auto.
Qed.
Lemma travelled_clear : forall cs x l, k_idx l <> k_idx x -> travelled (clear1 cs x) l = travelled cs l.
Proof. intros cs x l N. unfold travelled. rewrite clear1_nth; auto. Qed.
Lemma follow_path : forall ls fuel w start cs l k lend, path cs l ls lend -> ls <> [] -> NoDup (map k_idx ls) ->
  Forall (fun x => k_idx x <> start) (tl ls) -> k_idx lend = start -> k_front lend = true -> (List.length ls <= fuel)%nat ->
  follow fuel w start cs l k = let* k' := fold_res (visit w) k (flat_map (travelled cs) ls) in Ok (clear ls cs, k').
Proof.
  induction ls as [|x ls IH]; intros fuel w start cs l k lend P NE ND F EI EF L; [congruence|].
  destruct P as [-> [l' [[c [H S]] P]]]. destruct fuel as [|fuel]; [simpl in L; lia|]. simpl follow. unfold chain_at. rewrite H. simpl bind.
  simpl flat_map. rewrite fold_res_app. unfold travelled at 1. rewrite H.
  destruct (fold_res (visit w) k (if k_front l then ch_items c else rev (ch_items c))) as [k'|e|]; simpl bind; auto.
  replace (if k_front l then expect (ch_nb c) _ else expect (ch_nf c) _) with (Ok l').
  2:{ destruct (k_front l); simpl in S; rewrite S; reflexivity. }
  simpl bind.
  assert (C1 : list_set (k_idx l) (mkChain (ch_winding c) [] (ch_nf c) (ch_nb c)) cs = clear1 cs l) by (unfold clear1; rewrite H; reflexivity).
  rewrite C1. simpl in ND. inversion ND as [|? ? N1 N2]; subst. destruct ls as [|y ls].
  - simpl in P. subst l'. rewrite Nat.eqb_refl, EF. reflexivity.
  - destruct P as [-> P]. simpl in F. inversion F as [|? ? F1 F2]; subst. replace (Nat.eqb (k_idx l') (k_idx lend)) with false by (symmetry; apply Nat.eqb_neq; auto).
    rewrite (IH fuel w (k_idx lend) (clear1 cs l) l' k' lend); auto; try discriminate.
    + simpl clear. f_equal. f_equal. rewrite !flat_map_concat_map. f_equal. apply map_ext_in. intros z Hz. apply travelled_clear.
      intros E. apply N1. rewrite <- E. apply in_map. auto.
    + apply path_clear; auto. simpl. split; auto.
    + simpl in *. lia.
Qed.

(** ** The edges of a closed walk *)
Lemma edges_rev : forall l, Permutation (edges (rev l)) (map reversed (edges l)).
Proof.
  induction l as [|a [|b l] IH]; [constructor|constructor|]. rewrite edges_cons. simpl map. rewrite <- IH.
  change (rev (a :: b :: l)) with (rev (b :: l) ++ [a]). rewrite edges_snoc by (simpl; destruct (rev l); discriminate).
  replace (last (rev (b :: l)) D) with b by (simpl; rewrite last_last; auto). unfold reversed. simpl. symmetry. apply Permutation_cons_append.
Qed.
Lemma edges_app : forall l l', l <> [] -> l' <> [] -> edges (l ++ l') = edges l ++ (last l D, hd D l') :: edges l'.
Proof.
  intros l l' N N'. destruct (last_ne l D N) as [m E]. destruct l' as [|b l']; [congruence|]. rewrite E at 1. rewrite <- app_assoc. simpl app.
  rewrite edges_split. rewrite <- E. reflexivity.
Qed.
Definition linke (cs : list chain) (l : link) : list (pt * pt) := match nth_error cs (k_idx l) with Some c => link_edge cs c | None => [] end.
Definition contribl (cs : list chain) (l : link) : list (pt * pt) := match nth_error cs (k_idx l) with Some c => contrib cs c | None => [] end.
Fixpoint jumps (cs : list chain) (ls : list link) (lend : link) : list (pt * pt) :=
  match ls with
  | [] => []
  | l :: ls' => (last (travelled cs l) D, hd D (travelled cs (hd lend ls'))) :: jumps cs ls' lend
  end.
Lemma hd_rev : forall (l : list pt), hd D (rev l) = last l D.
Proof.
  intros l. destruct l as [|a l _] using rev_ind; auto. rewrite rev_app_distr, last_last. reflexivity.
Qed.
Lemma last_rev : forall (l : list pt), last (rev l) D = hd D l.
Proof. intros [|a l]; auto. simpl. apply last_last. Qed.
Lemma travelled_ends : forall cs l c, nth_error cs (k_idx l) = Some c ->
  hd D (travelled cs l) = end_pt c (k_front l) /\ last (travelled cs l) D = end_pt c (negb (k_front l)).
Proof. intros cs l c H. unfold travelled. rewrite H. destruct (k_front l); simpl; rewrite ?hd_rev, ?last_rev; auto. Qed.
Lemma travelled_ne : forall cs w l, entered cs w l -> travelled cs l <> [].
Proof.
  intros cs w l [c [H [N _]]]. unfold travelled. rewrite H. destruct (k_front l); auto. intros E. apply N. rewrite <- (rev_involutive (ch_items c)), E. reflexivity.
Qed.
Lemma contribl_split : forall cs w l, entered cs w l -> Permutation (contribl cs l) (map (orient w) (edges (travelled cs l)) ++ linke cs l).
Proof.
  intros cs w l [c [H [N W]]]. unfold contribl, linke, travelled, contrib. rewrite H. destruct (ch_items c) as [|x it] eqn:E; [congruence|].
  rewrite <- E. apply Permutation_app_tail. destruct (k_front l); simpl in W.
  - rewrite W. reflexivity.
  - rewrite edges_rev, map_map, <- W. replace (map (orient (ch_winding c)) (edges (ch_items c))) with
      (map (fun x => orient (winding_inverse (ch_winding c)) (reversed x)) (edges (ch_items c))); [reflexivity|].
    apply map_ext. intros [a b]. destruct (ch_winding c); reflexivity.
Qed.
Lemma linke_ccw : forall cs l l', closed cs -> entered cs Ccw l -> step cs l l' -> linke cs l = [(last (travelled cs l) D, hd D (travelled cs l'))].
Proof.
  intros cs l l' C E S. destruct (step_back _ _ _ _ C E S) as [d [Hd _]]. destruct E as [c [H [N W]]]. destruct S as [c' [H' S]].
  rewrite H in H'. injection H' as <-. unfold linke, link_edge. rewrite H. rewrite <- (exit_of _ _ W), S, Hd.
  destruct (travelled_ends cs l c H) as [_ ->]. destruct (travelled_ends cs l' d Hd) as [-> _]. reflexivity.
Qed.
Lemma linke_cw : forall cs l l', closed cs -> entered cs Cw l -> entered cs Cw l' -> step cs l l' ->
  linke cs l' = [reversed (last (travelled cs l) D, hd D (travelled cs l'))].
Proof.
  intros cs l l' C E E' S. destruct (step_back _ _ _ _ C E S) as [d [Hd Nd]]. destruct E as [c [H [N W]]].
  destruct E' as [d' [Hd' [N' W']]]. rewrite Hd in Hd'. injection Hd' as <-. unfold linke, link_edge. rewrite Hd.
  rewrite out_neg in W'. assert (X : k_front l' = exit d) by (apply exit_of; destruct (out_w d (k_front l')); auto; discriminate).
  rewrite <- X, Nd. simpl k_idx. rewrite H. simpl k_front.
  destruct (travelled_ends cs l c H) as [_ ->]. destruct (travelled_ends cs l' d Hd) as [-> _]. reflexivity.
Qed.
Lemma links_ccw : forall cs ls l lend, closed cs -> path cs l ls lend -> Forall (entered cs Ccw) ls -> flat_map (linke cs) ls = jumps cs ls lend.
Proof.
  intros cs ls. induction ls as [|x ls IH]; intros l lend C P F; auto. destruct P as [-> [l' [S P]]]. inversion F as [|? ? F1 F2]; subst.
  simpl. rewrite (linke_ccw _ _ _ C F1 S). simpl. f_equal; [|eapply IH; eauto]. f_equal. f_equal. f_equal. destruct ls; simpl in *; [auto|]. destruct P as [-> _]. auto.
Qed.
Lemma links_cw : forall cs ls l lend, closed cs -> path cs l ls lend -> Forall (entered cs Cw) ls -> entered cs Cw lend ->
  flat_map (linke cs) (tl (ls ++ [lend])) = map reversed (jumps cs ls lend).
Proof.
  intros cs ls. induction ls as [|x ls IH]; intros l lend C P F E; auto. destruct P as [-> [l' [S P]]]. inversion F as [|? ? F1 F2]; subst.
  assert (HD : hd lend ls = l') by (destruct ls; simpl in *; [auto|]; destruct P as [-> _]; auto).
  assert (SP : ls ++ [lend] = l' :: tl (ls ++ [lend])) by (rewrite <- HD; destruct ls; reflexivity).
  change (tl ((l :: ls) ++ [lend])) with (ls ++ [lend]). rewrite SP. change (flat_map (linke cs) (l' :: tl (ls ++ [lend]))) with (linke cs l' ++ flat_map (linke cs) (tl (ls ++ [lend]))).
  rewrite (IH l' lend); auto. simpl. rewrite HD. rewrite (linke_cw cs l l'); auto.
  destruct ls; simpl in P; [subst; auto|]. destruct P as [-> _]. inversion F2; auto.
Qed.
Lemma path_edges : forall cs w ls l lend, path cs l ls lend -> Forall (entered cs w) ls -> entered cs w lend ->
  Permutation (edges (flat_map (travelled cs) ls ++ [hd D (travelled cs lend)])) (flat_map (fun l => edges (travelled cs l)) ls ++ jumps cs ls lend).
Proof.
  intros cs w ls. induction ls as [|x ls IH]; intros l lend P F E; [constructor|]. destruct P as [-> [l' [S P]]]. inversion F as [|? ? F1 F2]; subst.
  simpl. rewrite <- app_assoc. rewrite edges_app; [|eapply travelled_ne; eauto|destruct (flat_map (travelled cs) ls); discriminate].
  rewrite (IH l' lend P F2 E). rewrite <- app_assoc. apply Permutation_app_head.
  replace (hd D (flat_map (travelled cs) ls ++ [hd D (travelled cs lend)])) with (hd D (travelled cs (hd lend ls))).
  - apply Permutation_middle.
  - destruct ls as [|y ls]; [reflexivity|]. simpl. inversion F2 as [|? ? G _]; subst. pose proof (travelled_ne _ _ _ G).
    destruct (travelled cs y); [congruence|reflexivity].
Qed.
Lemma flat_split : forall cs w ls, Forall (entered cs w) ls ->
  Permutation (flat_map (contribl cs) ls) (map (orient w) (flat_map (fun l => edges (travelled cs l)) ls) ++ flat_map (linke cs) ls).
Proof.
  intros cs w ls. induction ls as [|l ls IH]; intros F; [constructor|]. inversion F as [|? ? F1 F2]; subst. simpl.
  rewrite (contribl_split _ _ _ F1), (IH F2), map_app, <- !app_assoc. apply Permutation_app_head.
  rewrite !app_assoc. apply Permutation_app_tail. apply Permutation_app_comm.
Qed.
Lemma walk_edges : forall cs w ls l0, closed cs -> path cs l0 ls l0 -> ls <> [] -> Forall (entered cs w) ls ->
  Permutation (flat_map (contribl cs) ls) (map (orient w) (edges (ring_pts (flat_map (travelled cs) ls)))).
Proof.
  intros cs w ls l0 C P NE F. assert (E0 : entered cs w l0). { destruct ls as [|x ls]; [congruence|]. destruct P as [-> _]. inversion F; auto. }
  assert (R : ring_pts (flat_map (travelled cs) ls) = flat_map (travelled cs) ls ++ [hd D (travelled cs l0)]).
  { destruct ls as [|x ls]; [congruence|]. destruct P as [-> _]. simpl. pose proof (travelled_ne _ _ _ E0) as N.
    destruct (travelled cs l0); [congruence|reflexivity]. }
  rewrite R, (path_edges _ _ _ _ _ P F E0), map_app, (flat_split _ _ _ F). apply Permutation_app_head.
  destruct w.
  - change (orient Cw) with (fun e : pt * pt => reversed e). cbv beta. change (map (fun e : pt * pt => reversed e)) with (map (@reversed)).
    rewrite <- (links_cw cs ls l0 l0); auto. destruct ls as [|x ls]; [congruence|]. destruct P as [-> _].
    simpl tl. rewrite flat_map_app. simpl. rewrite app_nil_r. apply Permutation_app_comm.
  - rewrite (map_ext (orient Ccw) (fun e => e)) by (intros [a b]; reflexivity). rewrite map_id. rewrite (links_ccw cs ls l0 l0); auto.
Qed.

(** ** Clearing the chains of a walk *)
Lemma concat_clear1 : forall (f : chain -> list (pt * pt)) cs l c, nth_error cs (k_idx l) = Some c -> f (cleared c) = [] ->
  Permutation (List.concat (map f cs)) (f c ++ List.concat (map f (clear1 cs l))).
Proof.
  intros f cs l c H F. unfold clear1. rewrite H. clear - H F. revert H. generalize (k_idx l). intros k. revert k.
  induction cs as [|x cs IH]; intros [|k] H; simpl in *; try discriminate.
  - injection H as ->. rewrite F. reflexivity.
  - rewrite (IH k H). rewrite !app_assoc. apply Permutation_app_tail. apply Permutation_app_comm.
Qed.
Lemma concat_clear : forall (f : chain -> list (pt * pt)) ls cs, (forall c, f (cleared c) = []) -> NoDup (map k_idx ls) ->
  (forall l, In l ls -> nth_error cs (k_idx l) <> None) ->
  Permutation (List.concat (map f cs))
    (flat_map (fun l => match nth_error cs (k_idx l) with Some c => f c | None => [] end) ls ++ List.concat (map f (clear ls cs))).
Proof.
  intros f ls. induction ls as [|l ls IH]; intros cs F N H; simpl; [reflexivity|]. inversion N as [|? ? N1 N2]; subst.
  destruct (nth_error cs (k_idx l)) as [c|] eqn:E; [|exfalso; apply (H l); auto; left; auto].
  rewrite (concat_clear1 f cs l c E (F c)). rewrite <- app_assoc. apply Permutation_app_head.
  rewrite (IH (clear1 cs l)); auto.
  - apply Permutation_app_tail. rewrite !flat_map_concat_map.
    replace (map _ ls) with (map (fun l0 => match nth_error cs (k_idx l0) with Some c0 => f c0 | None => [] end) ls); [reflexivity|].
    apply map_ext_in. intros z Hz. rewrite clear1_nth; auto. intros X. apply N1. rewrite <- X. apply in_map. auto.
  - intros z Hz. rewrite clear1_nth; [apply H; right; auto|]. intros X. apply N1. rewrite <- X. apply in_map. auto.
Qed.
Lemma closed_clear : forall cs w ls l0, closed cs -> path cs l0 ls l0 -> Forall (entered cs w) ls -> closed (clear ls cs).
Proof.
  intros cs w ls l0 C P F i c f H N.
  destruct (in_dec Nat.eq_dec i (map k_idx ls)) as [I|I]; [exfalso; apply N; eapply clear_nth_in; eauto|].
  rewrite clear_nth_out in H by auto. destruct (C i c f H N) as [b [d [A [B [E [G J]]]]]].
  exists b, d. split; auto. split; [|auto]. rewrite clear_nth_out; auto. intros K. apply in_map_iff in K. destruct K as [v [Ev Iv]].
  assert (EV : entered cs w v) by (rewrite Forall_forall in F; auto).
  assert (L0 : In l0 ls). { destruct ls as [|x ls]; [destruct Iv|]. destruct P as [-> _]. left. auto. }
  destruct (bool_dec (k_front b) (k_front v)) as [X|X].
  - (* entered from [i] *)
    assert (b = v) by (destruct b, v; simpl in *; congruence). subst b.
    assert (U : exists u, In u ls /\ step cs u v).
    { destruct (link_dec v l0) as [->|NV].
      - clear - P L0. destruct ls as [|x ls _] using rev_ind; [destruct L0|]. exists x. split; [apply in_or_app; right; left; auto|].
        assert (Q : forall m l e, path cs l (m ++ [x]) e -> step cs x e).
        { induction m as [|y m IH]; intros l e Q; simpl in Q.
          - destruct Q as [-> [l' [S <-]]]. auto.
          - destruct Q as [-> [l' [S Q]]]. eauto. }
        eauto.
      - apply (path_pred _ _ _ _ _ P); auto. apply in_or_app. auto. }
    destruct U as [u [Iu Su]]. assert (EU : entered cs w u) by (rewrite Forall_forall in F; auto).
    destruct (step_back _ _ _ _ C EU Su) as [d' [Hd' Nd']]. rewrite B in Hd'. injection Hd' as <-. rewrite G in Nd'. injection Nd' as Q1 Q2.
    apply I. rewrite Q1. apply in_map. auto.
  - assert (X' : k_front b = negb (k_front v)) by (destruct (k_front b), (k_front v); simpl; congruence).
    destruct (path_succ _ _ _ _ _ P Iv) as [u [Iu [c' [Hc' Su]]]]. rewrite Ev, B in Hc'. injection Hc' as <-. rewrite <- X', G in Su.
    assert (u = mkLink i f) by congruence. subst u. clear Su. apply I. apply in_app_or in Iu. destruct Iu as [Iu|[Iu|[]]]; [apply (in_map k_idx) in Iu; auto|apply (in_map k_idx) in L0; rewrite Iu in L0; auto].
Qed.
Lemma contrib_clear : forall cs ls, closed cs -> closed (clear ls cs) ->
  map (contrib (clear ls cs)) (clear ls cs) = map (contrib cs) (clear ls cs).
Proof.
  intros cs ls C C'. apply map_ext_in. intros c I. apply In_nth_error in I. destruct I as [i H].
  destruct (ch_items c) as [|x it] eqn:E; [unfold contrib; rewrite E; auto|]. assert (N : ch_items c <> []) by congruence.
  apply contrib_frame. intros b Hb. destruct (C' i c (exit c) H N) as [b' [d [A [B [G _]]]]]. rewrite Hb in A. injection A as <-.
  exists d, d. assert (K : ~ In (k_idx b) (map k_idx ls)) by (intros K; apply G; eapply clear_nth_in; eauto).
  rewrite clear_nth_out in B by auto. split; auto. split; auto. rewrite clear_nth_out; auto.
Qed.
Lemma finish_ok : forall curr cs out, (curr <= List.length cs)%nat -> closed cs ->
  (forall i c, nth_error cs i = Some c -> ch_items c <> [] -> (2 <= List.length (ch_items c))%nat) ->
  (forall i c, (curr <= i)%nat -> nth_error cs i = Some c -> ch_items c = []) ->
  ForallOrdPairs touch_only (List.concat (map (contrib cs) cs)) -> Forall (fun e => fst e <> snd e) (List.concat (map (contrib cs) cs)) ->
  exists rs, finish_loop curr cs out = Ok (out ++ rs) /\ Forall (fun r => proper_ring (r_coords r)) rs /\
    Permutation (List.concat (map (contrib cs) cs)) (flat_map region_left rs).
Proof.
  induction curr as [|i IH]; intros cs out L C T E F N.
  - exists []. simpl. rewrite app_nil_r. split; auto. split; auto. replace (List.concat (map (contrib cs) cs)) with (@nil (pt * pt)); auto.
    symmetry. clear - E. assert (G : forall c, In c cs -> contrib cs c = []).
    { intros c I. apply In_nth_error in I. destruct I as [k H]. unfold contrib. rewrite (E k c); auto. lia. }
    revert G. generalize (contrib cs). intros f G. induction cs as [|c cs IH]; auto. simpl. rewrite G by (left; auto). simpl. apply IH.
    + intros k x _ H. apply (E (S k) x); [lia|auto].
    + intros x I. apply G. right. auto.
  - cbn [finish_loop]. unfold chain_at. destruct (nth_error cs i) as [c|] eqn:H; [|apply nth_error_None in H; lia]. cbn [expect bind].
    destruct (ch_items c) as [|x it] eqn:EI; rewrite ?EI.
    + apply IH; auto; [lia|]. intros k d K Hk. destruct (Nat.eq_dec k i) as [->|]; [congruence|apply (E k); auto; lia].
    + assert (NI : ch_items c <> []) by congruence. set (w := ch_winding c). set (l0 := mkLink i true).
      assert (E0 : entered cs w l0) by (exists c; auto).
      destruct (route cs w l0 C E0) as [ls [P [NE [EN ND]]]].
      assert (L0 : exists ls', ls = l0 :: ls') by (destruct ls as [|y ls]; [congruence|]; destruct P as [-> _]; eauto). destruct L0 as [ls' EL].
      rewrite (follow_path ls (S (List.length cs)) w i cs l0 _ l0); auto.
      2:{ rewrite EL in *. simpl in *. inversion ND as [|? ? N1 N2]; subst. apply Forall_forall. intros z Hz X. apply N1. rewrite <- X. apply in_map. auto. }
      2:{ pose proof (route_length _ _ _ EN ND). lia. }
      pose proof (walk_edges cs w ls l0 C P NE EN) as WE.
      assert (CC : Permutation (List.concat (map (contrib cs) cs)) (flat_map (contribl cs) ls ++ List.concat (map (contrib (clear ls cs)) (clear ls cs)))).
      { rewrite contrib_clear; auto; [|eapply closed_clear; eauto]. apply (concat_clear (contrib cs) ls cs); auto.
        intros l Hl. rewrite Forall_forall in EN. destruct (EN l Hl) as [d [Hd _]]. congruence. }
      eapply fop_perm in F; [|apply touch_sym|exact CC]. apply (Permutation_Forall CC) in N. apply fop_app in F. destruct F as [F1 [F2 _]].
      apply Forall_app in N. destruct N as [N1 N2].
      eapply fop_perm in F1; [|apply touch_sym|exact WE]. apply (Permutation_Forall WE) in N1.
      destruct (walk_ok w (flat_map (travelled cs) ls) out) as [k [r [rs [E1 [E2 [E3 [E4 E5]]]]]]].
      { rewrite EL. simpl. rewrite app_length. unfold travelled, l0. simpl. rewrite H. pose proof (T i c H NI). lia. }
      { eapply fop_map; [|exact F1]. intros a b. apply touch_orient. }
      { rewrite Forall_map in N1. eapply Forall_impl; [|exact N1]. intros [a b]. destruct w; simpl; auto. }
      rewrite E1. simpl. rewrite E2. simpl. rewrite E3.
      destruct (IH (clear ls cs) (out ++ rs)) as [rs' [R1 [R2 R3]]]; auto.
      { rewrite clear_length. lia. }
      { eapply closed_clear; eauto. }
      { intros k' d Hd Nd. destruct (in_dec Nat.eq_dec k' (map k_idx ls)) as [I|I]; [exfalso; apply Nd; eapply clear_nth_in; eauto|].
        rewrite clear_nth_out in Hd by auto. eauto. }
      { intros k' d K Hd. destruct (in_dec Nat.eq_dec k' (map k_idx ls)) as [I|I]; [eapply clear_nth_in; eauto|].
        rewrite clear_nth_out in Hd by auto. destruct (Nat.eq_dec k' i) as [->|]; [exfalso; apply I; rewrite EL; left; auto|]. apply (E k'); auto. lia. }
      exists (rs ++ rs'). rewrite R1, app_assoc. split; auto. split.
      * apply Forall_app. split; auto. eapply Forall_impl; [|exact E4]. intros q [A _]. exact A.
      * rewrite CC, WE, R3, flat_map_app. apply Permutation_app_tail. rewrite E5. clear - E4. induction rs as [|r rs IH]; [constructor|].
        inversion E4 as [|? ? [_ A] B]; subst. simpl. rewrite A, map_app. apply Permutation_app_head. apply IH. auto.
Qed.
