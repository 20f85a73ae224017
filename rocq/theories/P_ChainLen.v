(** Number and length of the chains of the monotone decomposition. *)
Require Import List String Bool Arith Lia Permutation Sorted.
From Verif Require Import Base Scalar M_Events M_Geo M_LineOrPoint M_Slab M_Active M_MonoPoly M_Rings M_Op M_MonoSweep M_Chains.
From Verif Require Import P_Geo P_Slab P_EdgeSweep.
Import Datatypes.
Import ListNotations.
Local Open Scope nat_scope.

(** Number of coordinates of all chains together. *)
Definition tot (cs : list mchain) : nat := list_sum (map (fun c => length (c_coords c)) cs).
Lemma tot_app : forall a b, tot (a ++ b) = tot a + tot b.
Proof. intros a b. unfold tot. rewrite map_app, list_sum_app. reflexivity. Qed.
Lemma tot_set : forall cs i c c', nth_error cs i = Some c -> tot (list_set i c' cs) + length (c_coords c) = tot cs + length (c_coords c').
Proof.
  unfold tot. induction cs as [|x cs IH]; intros [|i] c c' E; try discriminate; cbn [nth_error] in E.
  - injection E as ->. cbn [list_set map list_sum fold_right]. change (fold_right Nat.add 0 (map (fun c => length (c_coords c)) cs)) with (list_sum (map (fun c => length (c_coords c)) cs)). lia.
  - specialize (IH i c c' E). cbn [list_set map]. change (list_sum (length (c_coords x) :: ?l)) with (length (c_coords x) + list_sum l). cbn [list_sum fold_right] in *. unfold list_sum in *. lia.
Qed.
(** What a link adds: chains and coordinates. *)
Definition more (l : mlink) : nat := match l with LStart _ _ _ | LSplit _ _ _ _ => 2 | _ => 0 end.
Definition extra (ty : vertex_type) (l : mlink) : nat :=
  match l with
  | LStart _ _ _ => 4
  | LContinue _ _ _ _ => 1
  | LMerge _ _ _ => match ty with VSplit => 4 | _ => 2 end
  | LSplit _ _ _ _ => 6
  | LEnd _ _ _ => 0
  end.
Lemma at_inv : forall cs i c, mchain_at cs i = Ok c -> nth_error cs i = Some c.
Proof. intros cs i c E. unfold mchain_at in E. apply expect_inv in E. auto. Qed.
Lemma new_inv : forall w o l c, mchain_new w o l = Ok c -> length (c_coords c) = length l.
Proof. intros w o l c E. unfold mchain_new in E. chk E. injection E as <-. cbn. apply rev_length. Qed.
Lemma pop_inv : forall c c' p, c_pop c = Ok (c', p) -> length (c_coords c) = S (length (c_coords c')).
Proof. intros c c' p E. unfold c_pop in E. destruct (c_coords c); [discriminate|]. injection E as <- _. reflexivity. Qed.
Lemma finish_inv : forall c c', c_finish c = Ok c' -> length (c_coords c') = length (c_coords c).
Proof. intros c c' E. unfold c_finish in E. chk E. injection E as <-. reflexivity. Qed.
Lemma merge_len : forall ty a b lim cs cs' k, Base.bind (merge_chains ty a b lim cs) (fun x => Ok x) = Ok (cs', k) ->
  length cs' = length cs /\ tot cs' = tot cs + k * match ty with VSplit => 2 | _ => 1 end.
Proof.
  intros ty a b lim cs cs' k E. assert (E' : merge_chains ty a b lim cs = Ok (cs', k)) by (destruct (merge_chains ty a b lim cs) as [[? ?]| |]; auto). clear E. revert cs' k E'.
  induction cs as [|c cs IH]; intros cs' k E; cbn [merge_chains] in E; [injection E as <- <-; auto|]. bnd E. bnd E. bnd E. destruct x1 as [r m]. injection E as <- <-. destruct (IH r m E2) as [I1 I2]. cbn [length]. split; [lia|].
  unfold tot in *. cbn [map list_sum fold_right] in *. fold (list_sum (map (fun c => length (c_coords c)) r)). fold (list_sum (map (fun c => length (c_coords c)) cs)). rewrite I2.
  destruct x.
  - unfold merge_chain in E1. destruct ty; try (injection E1 as <-; cbn [c_advance c_coords length]; lia). bnd E1. destruct x as [t0 b0]. injection E1 as <-. cbn [c_advance c_coords length]. lia.
  - injection E1 as <-. lia.
Qed.
Lemma link_len : forall p ty cs cur l cs' cur', apply_link p ty (cs, cur) l = Ok (cs', cur') -> length cs' = length cs + more l /\ tot cs' = tot cs + extra ty l.
Proof.
  intros p ty cs cur l cs' cur' E. destruct l; cbn [apply_link] in E; cbn [more extra].
  - chk E. bnd E. bnd E. apply new_inv in E1, E2. injection E as <- _. rewrite app_length, tot_app. split; [reflexivity|]. unfold tot at 2. cbn [map list_sum fold_right length] in *. lia.
  - chk E. bnd E. bnd E. bnd E. apply at_inv in E3. injection E as <- _. rewrite list_set_length. pose proof (tot_set cs _ _ (c_advance next x1) E3) as T. cbn [c_advance c_coords length] in T. lia.
  - chk E. bnd E. destruct x as [r k]. chk E. apply Nat.eqb_eq in E2. injection E as <- _. destruct (merge_len ty prev next limbs cs r k) as [L1 L2]; [rewrite E1; reflexivity|]. subst k. destruct ty; lia.
  - chk E. bnd E. rename x into idx. bnd E. rename x into c. apply at_inv in E2. bnd E. destruct x as [c1 old]. apply pop_inv in E3. destruct (match c_int c with Cw => (bot, top) | Ccw => (top, bot) end) as [limb other].
    bnd E. bnd E. apply new_inv in E4, E5. injection E as <- _. rewrite app_length, list_set_length, tot_app. split; [reflexivity|].
    pose proof (tot_set cs idx c (c_advance limb (c_advance next c1)) E2) as T. unfold tot at 2. cbn [map list_sum fold_right c_advance c_coords length] in *. lia.
  - chk E. injection E as <- _. lia.
Qed.
Lemma links_len : forall p ty ls cs cur cs' cur', fold_res (apply_link p ty) (cs, cur) ls = Ok (cs', cur') ->
  length cs' = length cs + list_sum (map more ls) /\ tot cs' = tot cs + list_sum (map (extra ty) ls).
Proof.
  induction ls as [|l ls IH]; intros cs cur cs' cur' E; cbn [fold_res] in E; [injection E as <- _; cbn; lia|]. bnd E. destruct x as [r k]. apply link_len in E0 as [L1 L2]. apply IH in E as [L3 L4]. cbn [map list_sum fold_right]. unfold list_sum in *. lia.
Qed.
Lemma both_len : forall i j cs cs', finish_both i j cs = Ok cs' -> length cs' = length cs /\ tot cs' = tot cs.
Proof.
  intros i j cs cs' E. unfold finish_both in E. bnd E. apply at_inv in E0. bnd E. apply finish_inv in E1. bnd E. apply at_inv in E2. bnd E. apply finish_inv in E3. bnd E. bnd E. bnd E. injection E as <-.
  pose proof (tot_set _ _ _ x0 E0). pose proof (tot_set _ _ _ x2 E2). rewrite !list_set_length. lia.
Qed.
Lemma close_len : forall l cs cs', fold_res close_look cs l = Ok cs' -> length cs' = length cs /\ tot cs' = tot cs.
Proof.
  induction l as [|i l IH]; intros cs cs' E; cbn [fold_res] in E; [injection E as <-; auto|]. bnd E. apply IH in E as [-> ->]. unfold close_look in E0. bnd E0. bnd E0. chk E0. destruct (c_done _); [injection E0 as <-; auto|]. bnd E0. bnd E0. destruct (peqb _ _); [|injection E0 as <-; auto]. apply both_len in E0. auto.
Qed.
Lemma reduce_len : forall p cs cur cs', reduce_point p cs cur = Ok cs' -> length cs' = length cs /\ tot cs' = tot cs.
Proof.
  intros p cs cur cs' E. unfold reduce_point in E. bnd E. chk E. destruct cur as [cur|].
  - destruct x as [|l0 [|l1 rest]]; [injection E as <-; auto|discriminate|]. chk E. bnd E. bnd E. bnd E. destruct x1 as [pr other]. bnd E. apply at_inv in E6. bnd E. destruct x2 as [cc' nn]. apply pop_inv in E7. bnd E. bnd E. bnd E. chk E. bnd E. apply both_len in E12 as [B1 B2]. bnd E. apply at_inv in E12. injection E as <-.
    pose proof (tot_set _ _ _ cc' E6). pose proof (tot_set _ _ _ (c_advance nn x6) E12) as T. cbn [c_advance c_coords length] in T. rewrite !list_set_length in *. lia.
  - destruct x as [|i l]; [injection E as <-; auto|]. apply close_len in E. auto.
Qed.
Lemma event_len : forall cs e cs', chain_event cs e = Ok cs' ->
  length cs' = length cs + list_sum (map more (se_links e)) /\ tot cs' = tot cs + list_sum (map (extra (se_ty e)) (se_links e)).
Proof. intros cs e cs' E. unfold chain_event in E. bnd E. destruct x as [r k]. apply links_len in E0. apply reduce_len in E. lia. Qed.
