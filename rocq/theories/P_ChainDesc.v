(** The chains built while decomposing a polygon, seen as pairs of a bottom and a top chain. *)
Require Import List String Bool Arith Lia Permutation.
From Verif Require Import Base Scalar M_Events M_Geo M_LineOrPoint M_Slab M_MonoPoly M_Rings M_Op M_MonoSweep M_Chains.
From Verif Require Import S_Geo P_Geo P_Slab P_OpStep.
Import Datatypes.
Import ListNotations.
Local Open Scope nat_scope.

Record opair : Type := mkO { bi : nat; ti : nat; ob : list pt; ot : list pt }.
Definition bch (d : bool) (o : opair) : mchain := mkMchain Ccw (ti o) (ob o) d.
Definition tch (d : bool) (o : opair) : mchain := mkMchain Cw (bi o) (ot o) d.
Definition ids (l : list opair) : list nat := flat_map (fun o => [bi o; ti o]) l.
(** Every chain is in one pair; the pairs of [D] are finished. *)
Record desc (cs : list mchain) (O D : list opair) : Prop := {
  de_ids : Permutation (ids (O ++ D)) (seq 0 (List.length cs));
  de_o : forall o, In o O -> nth_error cs (bi o) = Some (bch false o) /\ nth_error cs (ti o) = Some (tch false o);
  de_d : forall o, In o D -> nth_error cs (bi o) = Some (bch true o) /\ nth_error cs (ti o) = Some (tch true o) }.

Lemma ids_app : forall l l', ids (l ++ l') = ids l ++ ids l'. Proof. intros. apply flat_map_app. Qed.
Lemma ids_perm : forall l l', Permutation l l' -> Permutation (ids l) (ids l').
Proof. intros. apply Permutation_flat_map. auto. Qed.
Lemma in_ids : forall i l, In i (ids l) <-> exists o, In o l /\ (i = bi o \/ i = ti o).
Proof.
  intros i l. unfold ids. rewrite in_flat_map. split; intros (o & I & J); exists o; split; auto; cbn [In] in *; intuition auto.
Qed.
Lemma desc_perm : forall cs O O' D D', desc cs O D -> Permutation O O' -> Permutation D D' -> desc cs O' D'.
Proof.
  intros cs O O' D D' [A B C] P P'. constructor.
  - rewrite <- A. apply ids_perm. apply Permutation_app; apply Permutation_sym; auto.
  - intros o I. apply B. apply (Permutation_in _ (Permutation_sym P)). auto.
  - intros o I. apply C. apply (Permutation_in _ (Permutation_sym P')). auto.
Qed.
Lemma desc_nodup : forall cs O D, desc cs O D -> NoDup (ids (O ++ D)).
Proof. intros cs O D [A _ _]. apply (Permutation_NoDup (Permutation_sym A)). apply seq_NoDup. Qed.
Lemma desc_lt : forall cs O D i, desc cs O D -> In i (ids (O ++ D)) <-> i < List.length cs.
Proof. intros cs O D i [A _ _]. rewrite A, in_seq. lia. Qed.
Lemma desc_nth : forall cs O D i c, desc cs O D -> nth_error cs i = Some c ->
  exists d o, In o (if d : bool then D else O) /\ ((i = bi o /\ c = bch d o) \/ (i = ti o /\ c = tch d o)).
Proof.
  intros cs O D i c De E. assert (L : i < List.length cs) by (apply nth_error_Some; congruence). apply (desc_lt _ _ _ _ De) in L. apply in_ids in L as (o & I & J).
  apply in_app_or in I as [I|I].
  - exists false, o. split; auto. destruct (de_o _ _ _ De o I) as [X Y]. destruct J as [-> | ->]; [left|right]; split; auto; congruence.
  - exists true, o. split; auto. destruct (de_d _ _ _ De o I) as [X Y]. destruct J as [-> | ->]; [left|right]; split; auto; congruence.
Qed.
(** The chain numbers of a pair are its own. *)
Lemma fresh_ids : forall cs o O D, desc cs (o :: O) D -> bi o <> ti o /\ forall o', In o' (O ++ D) -> bi o' <> bi o /\ bi o' <> ti o /\ ti o' <> bi o /\ ti o' <> ti o.
Proof.
  intros cs o O D De. pose proof (desc_nodup _ _ _ De) as N. cbn [app ids flat_map] in N. inversion N as [|? ? N1 N2]; subst. inversion N2 as [|? ? N3 N4]; subst. cbn [In] in N1.
  split; [intuition auto|]. intros o' I. assert (J1 : In (bi o') (ids (O ++ D))) by (apply in_ids; exists o'; auto). assert (J2 : In (ti o') (ids (O ++ D))) by (apply in_ids; exists o'; auto).
  repeat split; intros Q; rewrite Q in *; intuition auto.
Qed.

Lemma desc_setb : forall cs o O D l, desc cs (o :: O) D -> desc (list_set (bi o) (mkMchain Ccw (ti o) l false) cs) (mkO (bi o) (ti o) l (ot o) :: O) D.
Proof.
  intros cs o O D l De. destruct (fresh_ids _ _ _ _ De) as [N F]. pose proof (de_o _ _ _ De o (or_introl eq_refl)) as [X Y].
  constructor.
  - rewrite list_set_length. apply (de_ids _ _ _ De).
  - intros o' [<-|I].
    + cbn [bi ti]. rewrite list_set_same by (apply nth_error_Some; congruence). rewrite list_set_other by auto. rewrite Y. auto.
    + destruct (F o') as (F1 & _ & F3 & _); [apply in_or_app; auto|]. rewrite !list_set_other by auto. apply (de_o _ _ _ De). right; auto.
  - intros o' I. destruct (F o') as (F1 & _ & F3 & _); [apply in_or_app; auto|]. rewrite !list_set_other by auto. apply (de_d _ _ _ De). auto.
Qed.
Lemma desc_sett : forall cs o O D l, desc cs (o :: O) D -> desc (list_set (ti o) (mkMchain Cw (bi o) l false) cs) (mkO (bi o) (ti o) (ob o) l :: O) D.
Proof.
  intros cs o O D l De. destruct (fresh_ids _ _ _ _ De) as [N F]. pose proof (de_o _ _ _ De o (or_introl eq_refl)) as [X Y].
  constructor.
  - rewrite list_set_length. apply (de_ids _ _ _ De).
  - intros o' [<-|I].
    + cbn [bi ti]. rewrite list_set_same by (apply nth_error_Some; congruence). rewrite list_set_other by auto. rewrite X. auto.
    + destruct (F o') as (_ & F1 & _ & F3); [apply in_or_app; auto|]. rewrite !list_set_other by auto. apply (de_o _ _ _ De). right; auto.
  - intros o' I. destruct (F o') as (_ & F1 & _ & F3); [apply in_or_app; auto|]. rewrite !list_set_other by auto. apply (de_d _ _ _ De). auto.
Qed.
Lemma desc_fin : forall cs o O D i j, desc cs (o :: O) D -> (i = bi o /\ j = ti o) \/ (i = ti o /\ j = bi o) ->
  exists cs', finish_both i j cs = Ok cs' /\ desc cs' O (o :: D).
Proof.
  intros cs o O D i j De W. destruct (fresh_ids _ _ _ _ De) as [N F]. pose proof (de_o _ _ _ De o (or_introl eq_refl)) as [X Y].
  assert (Li : bi o < List.length cs) by (apply nth_error_Some; congruence). assert (Lj : ti o < List.length cs) by (apply nth_error_Some; congruence).
  assert (R : forall cs', List.length cs' = List.length cs -> nth_error cs' (bi o) = Some (bch true o) -> nth_error cs' (ti o) = Some (tch true o) ->
    (forall k, k <> bi o -> k <> ti o -> nth_error cs' k = nth_error cs k) -> desc cs' O (o :: D)).
  { intros cs' E1 E2 E3 E4. constructor.
    - rewrite E1, <- (de_ids _ _ _ De). apply ids_perm. apply Permutation_sym, (Permutation_middle O D o).
    - intros o' I. destruct (F o') as (F1 & F2 & F3 & F4); [apply in_or_app; auto|]. rewrite !E4 by auto. apply (de_o _ _ _ De). right; auto.
    - intros o' [<-|I]; [auto|]. destruct (F o') as (F1 & F2 & F3 & F4); [apply in_or_app; auto|]. rewrite !E4 by auto. apply (de_d _ _ _ De). auto. }
  unfold finish_both, mchain_at. destruct W as [[-> ->]|[-> ->]].
  - rewrite X. cbn [expect bind bch c_finish c_done negb check c_int c_other c_coords]. rewrite list_set_other, Y by auto. cbn [expect bind tch c_finish c_done negb check c_int c_other c_coords].
    rewrite (list_set_other _ (ti o) (bi o)), list_set_same, list_set_same by (rewrite ?list_set_length; auto). cbn [expect bind finalize_pair c_int winding_eqb negb check]. eexists. split; [reflexivity|].
    apply R.
    + rewrite !list_set_length. auto.
    + rewrite list_set_other, list_set_same by auto. reflexivity.
    + rewrite list_set_same by (rewrite list_set_length; auto). reflexivity.
    + intros k K1 K2. rewrite !list_set_other by auto. reflexivity.
  - rewrite Y. cbn [expect bind tch c_finish c_done negb check c_int c_other c_coords]. rewrite list_set_other, X by auto. cbn [expect bind bch c_finish c_done negb check c_int c_other c_coords].
    rewrite (list_set_other _ (bi o) (ti o)), list_set_same, list_set_same by (rewrite ?list_set_length; auto). cbn [expect bind finalize_pair c_int winding_eqb negb check]. eexists. split; [reflexivity|].
    apply R.
    + rewrite !list_set_length. auto.
    + rewrite list_set_same by (rewrite list_set_length; auto). reflexivity.
    + rewrite list_set_other, list_set_same by auto. reflexivity.
    + intros k K1 K2. rewrite !list_set_other by auto. reflexivity.
Qed.
Lemma desc_new : forall cs O D o (swap : bool), desc cs O D -> (if swap then bi o = List.length cs /\ ti o = S (List.length cs) else ti o = List.length cs /\ bi o = S (List.length cs)) ->
  desc (cs ++ (if swap then [bch false o; tch false o] else [tch false o; bch false o])) (o :: O) D.
Proof.
  intros cs O D o swap De W.
  assert (Q : Permutation [bi o; ti o] [List.length cs; S (List.length cs)]) by (destruct swap; destruct W as [-> ->]; [apply Permutation_refl|apply perm_swap]).
  assert (R : forall o', In o' (O ++ D) -> bi o' < List.length cs /\ ti o' < List.length cs).
  { intros o' I. split; apply (desc_lt _ _ _ _ De), in_ids; exists o'; auto. }
  constructor.
  - rewrite app_length. replace (List.length (if swap then [bch false o; tch false o] else [tch false o; bch false o])) with 2 by (destruct swap; reflexivity).
    rewrite seq_app. cbn [app ids flat_map seq]. cbn [plus]. change (bi o :: ti o :: flat_map (fun o0 => [bi o0; ti o0]) (O ++ D)) with ([bi o; ti o] ++ ids (O ++ D)).
    rewrite Q, (de_ids _ _ _ De). apply Permutation_app_comm.
  - intros o' [<-|I].
    + destruct swap; destruct W as [-> ->]; rewrite !nth_error_app2 by lia; rewrite !Nat.sub_succ_l, !Nat.sub_diag by lia; auto.
    + destruct (R o') as [R1 R2]; [apply in_or_app; auto|]. rewrite !nth_error_app1 by auto. apply (de_o _ _ _ De); auto.
  - intros o' I. destruct (R o') as [R1 R2]; [apply in_or_app; auto|]. rewrite !nth_error_app1 by auto. apply (de_d _ _ _ De); auto.
Qed.
Lemma desc_map : forall (mv : mchain -> mchain) cs O D, desc cs O D -> (forall c, c_done c = true -> mv c = c) ->
  (forall c, c_int (mv c) = c_int c /\ c_other (mv c) = c_other c /\ c_done (mv c) = c_done c) ->
  desc (map mv cs) (map (fun o => mkO (bi o) (ti o) (c_coords (mv (bch false o))) (c_coords (mv (tch false o)))) O) D.
Proof.
  intros mv cs O D De M1 M2. assert (Id : forall l, ids (map (fun o => mkO (bi o) (ti o) (c_coords (mv (bch false o))) (c_coords (mv (tch false o)))) l) = ids l).
  { induction l as [|o l IH]; auto. cbn [map ids flat_map bi ti app]. fold (ids l). rewrite <- IH. reflexivity. }
  constructor.
  - rewrite map_length, ids_app, Id, <- ids_app. apply (de_ids _ _ _ De).
  - intros o' I. apply in_map_iff in I as (o & <- & I). destruct (de_o _ _ _ De o I) as [X Y]. cbn [bi ti]. rewrite !nth_error_map, X, Y. cbn [option_map].
    destruct (M2 (bch false o)) as (A1 & A2 & A3). destruct (M2 (tch false o)) as (B1 & B2 & B3).
    destruct (mv (bch false o)) as [a1 a2 a3 a4]. destruct (mv (tch false o)) as [b1 b2 b3 b4]. cbn in *. subst. auto.
  - intros o' I. destruct (de_d _ _ _ De o' I) as [X Y]. rewrite !nth_error_map, X, Y. cbn [option_map]. rewrite !M1 by reflexivity. auto.
Qed.

(** * Scanning the chains *)
Fixpoint sel (g : mchain -> bool) (i : nat) (cs : list mchain) : list nat :=
  match cs with [] => [] | c :: cs' => if g c then i :: sel g (S i) cs' else sel g (S i) cs' end.
Lemma sel_positions : forall f g cs i, (forall c, In c cs -> f c = Ok (g c)) -> positions f i cs = Ok (sel g i cs).
Proof.
  intros f g. induction cs as [|c cs IH]; intros i F; auto. cbn [positions sel]. rewrite (F c) by (left; auto). cbn [bind]. rewrite IH by (intros; apply F; right; auto). cbn [bind]. destruct (g c); reflexivity.
Qed.
Lemma sel_find : forall f g cs i, (forall c, In c cs -> f c = Ok (g c)) -> find_position f i cs = Ok (hd_error (sel g i cs)).
Proof.
  intros f g. induction cs as [|c cs IH]; intros i F; auto. cbn [find_position sel]. rewrite (F c) by (left; auto). cbn [bind]. destruct (g c); [reflexivity|]. apply IH. intros; apply F; right; auto.
Qed.
Lemma sel_merge : forall ty prev next lim g mv cs i, (forall c, In c cs -> looks_at prev c = Ok (g c)) -> (forall c, In c cs -> g c = true -> merge_chain ty next lim c = Ok (mv c)) ->
  merge_chains ty prev next lim cs = Ok (map (fun c => if g c then mv c else c) cs, List.length (sel g i cs)).
Proof.
  intros ty prev next lim g mv. induction cs as [|c cs IH]; intros i F M; auto. cbn [merge_chains sel map]. rewrite (F c) by (left; auto). cbn [bind].
  destruct (g c) eqn:E.
  - rewrite (M c) by (auto; left; auto). cbn [bind]. rewrite (IH (S i)) by (first [intros; apply F; right; auto|intros; apply M; [right; auto|auto]]). reflexivity.
  - cbn [bind]. rewrite (IH (S i)) by (first [intros; apply F; right; auto|intros; apply M; [right; auto|auto]]). reflexivity.
Qed.
Lemma in_sel : forall g cs i j, In j (sel g i cs) <-> i <= j /\ exists c, nth_error cs (j - i) = Some c /\ g c = true.
Proof.
  intros g. induction cs as [|c cs IH]; intros i j; cbn [sel].
  - split; [intros []|]. intros [_ (c & E & _)]. destruct (j - i); discriminate E.
  - assert (Q : In j (sel g (S i) cs) <-> i < j /\ exists c', nth_error (c :: cs) (j - i) = Some c' /\ g c' = true).
    { rewrite IH. split; intros [L (c' & E & G)]; (split; [lia|exists c'; split; auto]).
      - replace (j - i) with (S (j - S i)) by lia. auto.
      - replace (j - i) with (S (j - S i)) in E by lia. auto. }
    destruct (g c) eqn:E; [cbn [In]|]; rewrite Q; split.
    + intros [<-|[L X]]; [|split; auto; lia]. split; [lia|]. exists c. rewrite Nat.sub_diag. auto.
    + intros [L X]. destruct (Nat.eq_dec i j) as [Q1|Q1]; auto. right. split; auto. lia.
    + intros [L X]. split; auto. lia.
    + intros [L (c' & X & Y)]. split; [|exists c'; auto]. destruct (Nat.eq_dec i j) as [<-|Q1]; [|lia]. rewrite Nat.sub_diag in X. injection X as <-. congruence.
Qed.
Lemma sel_nodup : forall g cs i, NoDup (sel g i cs).
Proof.
  intros g. induction cs as [|c cs IH]; intros i; cbn [sel]; [constructor|]. destruct (g c); auto. constructor; auto. intros I. apply in_sel in I as [L _]. lia.
Qed.
(** The chains with a property, by pairs. *)
Definition chosen (g : mchain -> bool) (O : list opair) : list nat :=
  flat_map (fun o => (if g (bch false o) then [bi o] else []) ++ (if g (tch false o) then [ti o] else [])) O.
Lemma chosen_cons : forall g o O, chosen g (o :: O) = (if g (bch false o) then [bi o] else []) ++ (if g (tch false o) then [ti o] else []) ++ chosen g O.
Proof. intros. unfold chosen. cbn [flat_map]. rewrite <- app_assoc. reflexivity. Qed.
Lemma chosen_none : forall g O, (forall o, In o O -> g (bch false o) = false /\ g (tch false o) = false) -> chosen g O = [].
Proof.
  intros g O. induction O as [|o O IH]; intros F; auto. rewrite chosen_cons. destruct (F o (or_introl eq_refl)) as [-> ->]. apply IH. intros; apply F; right; auto.
Qed.
Lemma in_chosen : forall g O j, In j (chosen g O) <-> exists o, In o O /\ ((j = bi o /\ g (bch false o) = true) \/ (j = ti o /\ g (tch false o) = true)).
Proof.
  intros g O j. unfold chosen. rewrite in_flat_map. split; intros (o & I & J); exists o; split; auto.
  - apply in_app_or in J. destruct (g (bch false o)), (g (tch false o)); cbn [In] in J; intuition auto.
  - apply in_or_app. destruct J as [[-> ->]|[-> ->]]; [left|right]; left; auto.
Qed.
Lemma chosen_nodup : forall g O, NoDup (ids O) -> NoDup (chosen g O).
Proof.
  intros g O. induction O as [|o O IH]; intros N; [constructor|]. cbn [ids flat_map app] in N. fold (ids O) in N. inversion N as [|? ? N1 N2]; subst. inversion N2 as [|? ? N3 N4]; subst.
  assert (Sub : forall j, In j (chosen g O) -> In j (ids O)) by (intros j I; apply in_chosen in I as (o' & I & J); apply in_ids; exists o'; intuition auto).
  rewrite chosen_cons. cbn [In] in N1. assert (N5 : ~ In (bi o) (chosen g O)) by (intros I; apply N1; right; auto). assert (N6 : ~ In (ti o) (chosen g O)) by (intros I; apply N3; auto).
  assert (N7 : bi o <> ti o) by (intros Q; apply N1; left; auto).
  destruct (g (bch false o)), (g (tch false o)); cbn [app]; repeat constructor; auto; cbn [In]; intuition auto.
Qed.
Lemma sel_desc : forall g cs O D, desc cs O D -> (forall c, c_done c = true -> g c = false) -> Permutation (sel g 0 cs) (chosen g O).
Proof.
  intros g cs O D De Gd. apply NoDup_Permutation; [apply sel_nodup|apply chosen_nodup|].
  { pose proof (desc_nodup _ _ _ De) as N. rewrite ids_app in N. clear - N. induction (ids O) as [|x l IH]; [constructor|]. inversion N; subst. constructor; auto. intros I. apply H1. apply in_or_app; auto. }
  intros j. rewrite in_sel, in_chosen, Nat.sub_0_r. split.
  - intros [_ (c & E & G)]. destruct (desc_nth _ _ _ _ _ De E) as (d & o & I & J). destruct d.
    + exfalso. destruct J as [[_ ->]|[_ ->]]; rewrite Gd in G by reflexivity; discriminate.
    + exists o. split; auto. destruct J as [[-> ->]|[-> ->]]; auto.
  - intros (o & I & J). split; [lia|]. destruct (de_o _ _ _ De o I) as [X Y]. destruct J as [[-> G]|[-> G]]; eauto.
Qed.
Lemma desc_all : forall (P : mchain -> Prop) cs O D, desc cs O D -> (forall c, c_done c = true -> P c) -> (forall o, In o O -> P (bch false o) /\ P (tch false o)) -> forall c, In c cs -> P c.
Proof.
  intros P cs O D De Pd Po c I. apply In_nth_error in I as (i & E). destruct (desc_nth _ _ _ _ _ De E) as ([|] & o & I & J).
  - apply Pd. destruct J as [[_ ->]|[_ ->]]; reflexivity.
  - destruct (Po o I). destruct J as [[_ ->]|[_ ->]]; auto.
Qed.

(** * Heads *)
Definition hdb (p : pt) (l : list pt) : bool := match l with q :: _ => peqb q p | [] => false end.
Definition sdb (p : pt) (l : list pt) : bool := match l with _ :: q :: _ => peqb q p | _ => false end.
Definition lk (p : pt) (c : mchain) : bool := negb (c_done c) && hdb p (c_coords c).
Definition sk (p : pt) (c : mchain) : bool := negb (c_done c) && sdb p (c_coords c).
Definition oek (a p : pt) (c : mchain) : bool := negb (c_done c) && (hdb p (c_coords c) && sdb a (c_coords c)).
Definition full (o : opair) : Prop := 2 <= List.length (ob o) /\ 2 <= List.length (ot o).
Lemma hdb_cons : forall p q l, hdb p (q :: l) = peqb q p. Proof. reflexivity. Qed.
Lemma peqb_same : forall p, peqb p p = true. Proof. intros. apply peqb_iff. auto. Qed.

Section Desc.
Variables (cs : list mchain) (O D : list opair).
Hypothesis De : desc cs O D.
Hypothesis Fu : forall o, In o O -> full o.
Lemma looks_ok : forall p c, In c cs -> looks_at p c = Ok (lk p c).
Proof.
  intros p. apply (desc_all _ cs O D De).
  - intros c E. unfold looks_at, lk. rewrite E. reflexivity.
  - intros o I. destruct (Fu o I) as [X Y]. unfold looks_at, lk, c_next, hdb. cbn [bch tch c_done c_coords negb andb].
    split; [destruct (ob o)|destruct (ot o)]; try (cbn in *; lia); reflexivity.
Qed.
Lemma stands_ok : forall p c, In c cs -> stands_at p c = Ok (sk p c).
Proof.
  intros p. apply (desc_all _ cs O D De).
  - intros c E. unfold stands_at, sk. rewrite E. reflexivity.
  - intros o I. destruct (Fu o I) as [X Y]. unfold stands_at, sk, c_curr, sdb. cbn [bch tch c_done c_coords negb andb].
    split; [destruct (ob o) as [|? [|]]|destruct (ot o) as [|? [|]]]; try (cbn in *; lia); reflexivity.
Qed.
Lemma on_edge_ok : forall a p c, In c cs -> on_edge a p c = Ok (oek a p c).
Proof.
  intros a p. apply (desc_all _ cs O D De).
  - intros c E. unfold on_edge, looks_at, oek. rewrite E. reflexivity.
  - intros o I. destruct (Fu o I) as [X Y]. unfold on_edge, looks_at, oek, c_next, c_curr, hdb, sdb. cbn [bch tch c_done c_coords negb andb].
    split; [destruct (ob o) as [|? [|]]|destruct (ot o) as [|? [|]]]; try (cbn in *; lia); cbn [bind]; destruct (peqb _ _); reflexivity.
Qed.
Lemma looks_sel : forall p, exists L, positions (looks_at p) 0 cs = Ok L /\ Permutation L (chosen (lk p) O).
Proof.
  intros p. exists (sel (lk p) 0 cs). split; [apply sel_positions, looks_ok|]. apply (sel_desc _ _ _ _ De). intros c E. unfold lk. rewrite E. reflexivity.
Qed.
Lemma stands_sel : forall p, exists L, positions (stands_at p) 0 cs = Ok L /\ Permutation L (chosen (sk p) O).
Proof.
  intros p. exists (sel (sk p) 0 cs). split; [apply sel_positions, stands_ok|]. apply (sel_desc _ _ _ _ De). intros c E. unfold sk. rewrite E. reflexivity.
Qed.
Lemma edge_sel : forall a p, exists L, find_position (on_edge a p) 0 cs = Ok (hd_error L) /\ Permutation L (chosen (oek a p) O).
Proof.
  intros a p. exists (sel (oek a p) 0 cs). split; [apply sel_find, on_edge_ok|]. apply (sel_desc _ _ _ _ De). intros c E. unfold oek. rewrite E. reflexivity.
Qed.
End Desc.

(** * Finishing the pairs that meet at a point *)
Definition eqh (o : opair) : bool := match ob o, ot o with a :: _, b :: _ => peqb a b | _, _ => false end.
Definition closed (p : pt) (o : opair) : bool := hdb p (ob o) && hdb p (ot o).
Lemma apart : forall cs O D o o', desc cs O D -> In o' O -> In o D -> bi o <> bi o' /\ bi o <> ti o' /\ ti o <> bi o' /\ ti o <> ti o'.
Proof.
  intros cs O D o o' De I' I. apply in_split in I' as (O1 & O2 & ->). assert (De' : desc cs (o' :: O1 ++ O2) D) by (apply (desc_perm _ _ _ _ _ De); auto; apply Permutation_sym, Permutation_middle).
  destruct (fresh_ids _ _ _ _ De') as [N F]. apply F. apply in_or_app; auto.
Qed.
Lemma close_b : forall cs o a b l1 l2, nth_error cs (bi o) = Some (bch false o) -> nth_error cs (ti o) = Some (tch false o) -> ob o = a :: l1 -> ot o = b :: l2 ->
  close_look cs (bi o) = if peqb a b then finish_both (bi o) (ti o) cs else Ok cs.
Proof.
  intros cs o a b l1 l2 X Y E1 E2. unfold close_look, mchain_at. rewrite X. cbn [expect bind bch c_other]. rewrite Y. cbn [expect bind].
  unfold c_next, bch, tch. cbn [c_coords c_done eqb check bind]. rewrite E1, E2. reflexivity.
Qed.
Lemma close_t : forall cs o a b l1 l2, nth_error cs (bi o) = Some (bch false o) -> nth_error cs (ti o) = Some (tch false o) -> ob o = a :: l1 -> ot o = b :: l2 ->
  close_look cs (ti o) = if peqb b a then finish_both (ti o) (bi o) cs else Ok cs.
Proof.
  intros cs o a b l1 l2 X Y E1 E2. unfold close_look, mchain_at. rewrite Y. cbn [expect bind tch c_other]. rewrite X. cbn [expect bind].
  unfold c_next, bch, tch. cbn [c_coords c_done eqb check bind]. rewrite E1, E2. reflexivity.
Qed.
Lemma close_fold : forall L cs O D, desc cs O D -> (forall o, In o O -> full o) -> (forall i, In i L -> In i (ids (O ++ D))) ->
  exists cs' O' C D', fold_res close_look cs L = Ok cs' /\ desc cs' O' D' /\ Permutation O (O' ++ C) /\ Permutation D' (C ++ D) /\
    (forall o, In o C -> eqh o = true /\ (In (bi o) L \/ In (ti o) L)) /\ (forall o, In o O' -> In (bi o) L \/ In (ti o) L -> eqh o = false).
Proof.
  induction L as [|i L IH]; intros cs O D De Fu Sub.
  - exists cs, O, [], D. cbn [fold_res]. split; [auto|]. split; [auto|]. split; [rewrite app_nil_r; auto|]. split; [auto|]. split; [intros o []|intros o I [[]|[]]].
  - assert (Ii := Sub i (or_introl eq_refl)). apply in_ids in Ii as (o & I & J). cbn [fold_res]. apply in_app_or in I as [I|I].
    + apply in_split in I as (O1 & O2 & ->). assert (Pm : Permutation (O1 ++ o :: O2) (o :: O1 ++ O2)) by (apply Permutation_sym, Permutation_middle).
      assert (De' := desc_perm _ _ _ _ _ De Pm (Permutation_refl D)). assert (Fu' : forall o', In o' (o :: O1 ++ O2) -> full o') by (intros o' I; apply Fu; apply (Permutation_in _ (Permutation_sym Pm)); auto).
      destruct (de_o _ _ _ De' o (or_introl eq_refl)) as [X Y]. destruct (Fu' o (or_introl eq_refl)) as [F1 F2].
      destruct (eqh o) eqn:Eo.
      * assert (Fin : exists cs1, close_look cs i = Ok cs1 /\ desc cs1 (O1 ++ O2) (o :: D)).
        { destruct J as [-> | ->].
          - destruct (desc_fin cs o (O1 ++ O2) D (bi o) (ti o) De' (or_introl (conj eq_refl eq_refl))) as (cs1 & E1 & D1). exists cs1. split; auto.
            unfold eqh in Eo. destruct (ob o) as [|a l1] eqn:Q1; [discriminate|]. destruct (ot o) as [|b l2] eqn:Q2; [discriminate|]. rewrite (close_b cs o a b l1 l2), Eo; auto.
          - destruct (desc_fin cs o (O1 ++ O2) D (ti o) (bi o) De' (or_intror (conj eq_refl eq_refl))) as (cs1 & E1 & D1). exists cs1. split; auto.
            unfold eqh in Eo. destruct (ob o) as [|a l1] eqn:Q1; [discriminate|]. destruct (ot o) as [|b l2] eqn:Q2; [discriminate|]. apply peqb_iff in Eo. subst b. rewrite (close_t cs o a a l1 l2), peqb_same; auto. }
        destruct Fin as (cs1 & E1 & D1). rewrite E1. cbn [bind].
        destruct (IH cs1 (O1 ++ O2) (o :: D) D1) as (cs' & O' & C & D' & R1 & R2 & R3 & R4 & R5 & R6).
        { intros; apply Fu'; right; auto. }
        { intros k K. assert (K' := Sub k (or_intror K)). apply in_ids in K' as (o' & I' & J'). apply in_ids. exists o'. split; auto. rewrite !in_app_iff in *. cbn [In] in *. tauto. }
        exists cs', O', (o :: C), D'. split; [auto|]. split; [auto|]. split; [|split; [|split]].
        -- rewrite Pm, R3. apply Permutation_middle.
        -- rewrite R4. cbn [app]. apply Permutation_sym, Permutation_middle.
        -- intros o' [<-|I]; [split; auto; destruct J as [-> | ->]; cbn; auto|]. destruct (R5 o' I) as [Q1 Q2]. split; auto. cbn [In]. tauto.
        -- intros o' I [[K|K]|[K|K]]; [|apply (R6 o' I); auto| |apply (R6 o' I); auto]; exfalso.
           ++ destruct (fresh_ids _ _ _ _ De') as [N F]. destruct (F o') as (A1 & A2 & A3 & A4); [apply in_or_app; left; apply (Permutation_in _ (Permutation_sym R3)); apply in_or_app; auto|]. destruct J; congruence.
           ++ destruct (fresh_ids _ _ _ _ De') as [N F]. destruct (F o') as (A1 & A2 & A3 & A4); [apply in_or_app; left; apply (Permutation_in _ (Permutation_sym R3)); apply in_or_app; auto|]. destruct J; congruence.
      * assert (Nop : close_look cs i = Ok cs).
        { unfold eqh in Eo. destruct (ob o) as [|a l1] eqn:Q1; [cbn in F1; lia|]. destruct (ot o) as [|b l2] eqn:Q2; [cbn in F2; lia|]. destruct J as [-> | ->].
          - rewrite (close_b cs o a b l1 l2), Eo; auto.
          - rewrite (close_t cs o a b l1 l2); auto. destruct (peqb_spec b a) as [->|Nb]; [rewrite peqb_same in Eo; discriminate|reflexivity]. }
        rewrite Nop. cbn [bind]. destruct (IH cs (O1 ++ o :: O2) D De Fu) as (cs' & O' & C & D' & R1 & R2 & R3 & R4 & R5 & R6); [intros; apply Sub; right; auto|].
        exists cs', O', C, D'. split; [auto|]. split; [auto|]. split; [auto|]. split; [auto|]. split; [intros o' I; destruct (R5 o' I); cbn [In]; tauto|].
        intros o' I [[K|K]|[K|K]]; [|apply (R6 o' I); auto| |apply (R6 o' I); auto].
        -- assert (I' : In o' (o :: O1 ++ O2)) by (apply (Permutation_in _ Pm); apply (Permutation_in _ (Permutation_sym R3)); apply in_or_app; auto). destruct I' as [<-|I']; auto. exfalso.
           destruct (fresh_ids _ _ _ _ De') as [N F]. destruct (F o') as (A1 & A2 & A3 & A4); [apply in_or_app; auto|]. destruct J; congruence.
        -- assert (I' : In o' (o :: O1 ++ O2)) by (apply (Permutation_in _ Pm); apply (Permutation_in _ (Permutation_sym R3)); apply in_or_app; auto). destruct I' as [<-|I']; auto. exfalso.
           destruct (fresh_ids _ _ _ _ De') as [N F]. destruct (F o') as (A1 & A2 & A3 & A4); [apply in_or_app; auto|]. destruct J; congruence.
    + destruct (de_d _ _ _ De o I) as [X Y].
      assert (Nop : close_look cs i = Ok cs) by (destruct J as [-> | ->]; unfold close_look, mchain_at; rewrite ?X, ?Y; cbn [expect bind bch tch c_other]; rewrite ?X, ?Y; reflexivity).
      rewrite Nop. cbn [bind]. destruct (IH cs O D De Fu) as (cs' & O' & C & D' & R1 & R2 & R3 & R4 & R5 & R6); [intros; apply Sub; right; auto|].
      exists cs', O', C, D'. split; [auto|]. split; [auto|]. split; [auto|]. split; [auto|]. split; [intros o' I'; destruct (R5 o' I'); cbn [In]; tauto|].
      intros o' I' [[K|K]|[K|K]]; [|apply (R6 o' I'); auto| |apply (R6 o' I'); auto]; exfalso.
      * destruct (apart cs O D o o' De) as (A1 & A2 & A3 & A4); [apply (Permutation_in _ (Permutation_sym R3)); apply in_or_app; auto|auto|]. destruct J; congruence.
      * destruct (apart cs O D o o' De) as (A1 & A2 & A3 & A4); [apply (Permutation_in _ (Permutation_sym R3)); apply in_or_app; auto|auto|]. destruct J; congruence.
Qed.
Lemma filter_all : forall {X} (f : X -> bool) l, (forall x, In x l -> f x = true) -> filter f l = l.
Proof. intros X f l. induction l as [|x l IH]; intros F; auto. cbn [filter]. rewrite (F x) by (left; auto). rewrite IH; auto. intros; apply F; right; auto. Qed.
Lemma filter_none : forall {X} (f : X -> bool) l, (forall x, In x l -> f x = false) -> filter f l = [].
Proof. intros X f l. induction l as [|x l IH]; intros F; auto. cbn [filter]. rewrite (F x) by (left; auto). apply IH. intros; apply F; right; auto. Qed.
Lemma reduce_none : forall p cs O D, desc cs O D -> (forall o, In o O -> full o) -> List.length (chosen (lk p) O) mod 2 = 0 ->
  exists cs', reduce_point p cs None = Ok cs' /\ desc cs' (filter (fun o => negb (closed p o)) O) (filter (closed p) O ++ D).
Proof.
  intros p cs O D De Fu Ev. destruct (looks_sel cs O D De Fu p) as (L & E & P). unfold reduce_point. rewrite E. cbn [bind]. rewrite (Permutation_length P), Ev. cbn [Nat.eqb check bind].
  destruct (close_fold L cs O D De Fu) as (cs' & O' & C & D' & R1 & R2 & R3 & R4 & R5 & R6).
  { intros i I. apply (Permutation_in _ P) in I. apply in_chosen in I as (o & I & J). apply in_ids. exists o. split; [apply in_or_app; auto|]. intuition auto. }
  assert (HL : forall o, In o O -> (In (bi o) L <-> hdb p (ob o) = true) /\ (In (ti o) L <-> hdb p (ot o) = true)).
  { intros o I. assert (Q : forall i, In i L <-> In i (chosen (lk p) O)) by (intros i; rewrite P; reflexivity).
    apply in_split in I as (O1 & O2 & ->). assert (Pm : Permutation (O1 ++ o :: O2) (o :: O1 ++ O2)) by (apply Permutation_sym, Permutation_middle).
    assert (De' := desc_perm _ _ _ _ _ De Pm (Permutation_refl D)). destruct (fresh_ids _ _ _ _ De') as [N F].
    assert (Q' : forall i, In i L <-> In i (chosen (lk p) (o :: O1 ++ O2))).
    { intros i. rewrite Q, !in_chosen. split; intros (o' & I & J); exists o'; (split; [|auto]); [apply (Permutation_in _ Pm)|apply (Permutation_in _ (Permutation_sym Pm))]; auto. }
    rewrite !Q', !in_chosen. split; split.
    - intros (o' & [<-|I] & J); [destruct J as [[_ J]|[J _]]; [exact J|congruence]|]. exfalso. destruct (F o') as (A1 & A2 & A3 & A4); [apply in_or_app; auto|]. destruct J as [[J _]|[J _]]; congruence.
    - intros J. exists o. split; [left; auto|]. left. split; auto.
    - intros (o' & [<-|I] & J); [destruct J as [[J _]|[_ J]]; [congruence|exact J]|]. exfalso. destruct (F o') as (A1 & A2 & A3 & A4); [apply in_or_app; auto|]. destruct J as [[J _]|[J _]]; congruence.
    - intros J. exists o. split; [left; auto|]. right. split; auto. }
  assert (Cl : forall o, In o O -> closed p o = true <-> eqh o = true /\ (In (bi o) L \/ In (ti o) L)).
  { intros o I. destruct (HL o I) as [H1 H2]. rewrite H1, H2. unfold closed, eqh, hdb. destruct (Fu o I) as [F1 F2]. destruct (ob o) as [|a l1]; [cbn in F1; lia|]. destruct (ot o) as [|b l2]; [cbn in F2; lia|].
    rewrite andb_true_iff, !peqb_iff. split; [intros [-> ->]; auto|]. intros [-> [-> | ->]]; auto. }
  exists cs'. split.
  - destruct L; exact R1.
  - apply (desc_perm _ _ _ _ _ R2).
    + assert (Pf := perm_filter (fun o => negb (closed p o)) _ _ R3). rewrite filter_app in Pf. rewrite (filter_none _ C), app_nil_r, (filter_all _ O') in Pf; [apply Permutation_sym; auto| |].
      * intros o I. assert (Io : In o O) by (apply (Permutation_in _ (Permutation_sym R3)); apply in_or_app; auto). destruct (closed p o) eqn:Q; auto. exfalso. apply (Cl o Io) in Q as [Q1 Q2]. rewrite (R6 o I Q2) in Q1. discriminate.
      * intros o I. assert (Io : In o O) by (apply (Permutation_in _ (Permutation_sym R3)); apply in_or_app; auto). rewrite (proj2 (Cl o Io) (R5 o I)). reflexivity.
    + rewrite R4. apply Permutation_app_tail. assert (Pf := perm_filter (closed p) _ _ R3). rewrite filter_app in Pf. rewrite (filter_none _ O'), (filter_all _ C) in Pf; [apply Permutation_sym; auto| |].
      * intros o I. assert (Io : In o O) by (apply (Permutation_in _ (Permutation_sym R3)); apply in_or_app; auto). apply (Cl o Io). apply R5; auto.
      * intros o I. assert (Io : In o O) by (apply (Permutation_in _ (Permutation_sym R3)); apply in_or_app; auto). destruct (closed p o) eqn:Q; auto. exfalso. apply (Cl o Io) in Q as [Q1 Q2]. rewrite (R6 o I Q2) in Q1. discriminate.
Qed.
