(** What one event of the sweep does to the pairs of chains. *)
Require Import List String Bool Arith Lia Permutation.
From Verif Require Import Base Scalar M_Events M_Geo M_LineOrPoint M_Slab M_MonoPoly M_Rings M_Op M_MonoSweep M_Chains.
From Verif Require Import S_Geo P_Geo P_Slab P_OpStep P_MonoSweep P_ChainDesc.
Import Datatypes.
Import ListNotations.
Local Open Scope nat_scope.

Definition off (p : pt) (o : opair) : Prop := hdb p (ob o) = false /\ hdb p (ot o) = false.
Definition setb (l : list pt) (o : opair) : opair := mkO (bi o) (ti o) l (ot o).
Definition sett (l : list pt) (o : opair) : opair := mkO (bi o) (ti o) (ob o) l.
Lemma hdb_same : forall p l, hdb p (p :: l) = true. Proof. intros. apply peqb_same. Qed.
Lemma hdb_diff : forall p q l, q <> p -> hdb p (q :: l) = false. Proof. intros. apply peqb_false. auto. Qed.
Lemma chosen_off : forall p O, (forall o, In o O -> off p o) -> chosen (lk p) O = [].
Proof. intros p O F. apply chosen_none. intros o I. apply F; auto. Qed.
Lemma perm_one : forall {X} (l : list X) a, Permutation l [a] -> l = [a].
Proof. intros X l a P. apply Permutation_sym, Permutation_length_1_inv in P. auto. Qed.
Lemma mkO_eta : forall o, mkO (bi o) (ti o) (ob o) (ot o) = o. Proof. destruct o; reflexivity. Qed.
Lemma hd_error_one : forall {X} (l : list X) a, Permutation l [a] -> hd_error l = Some a.
Proof. intros X l a P. rewrite (perm_one _ _ P). reflexivity. Qed.

Lemma reduce_idle : forall p cs O D cur, desc cs O D -> (forall o, In o O -> full o) -> (forall o, In o O -> off p o) -> reduce_point p cs cur = Ok cs.
Proof.
  intros p cs O D cur De Fu Of. destruct (looks_sel cs O D De Fu p) as (L & E & P). rewrite chosen_off in P by auto. apply Permutation_sym, Permutation_nil in P. subst L.
  unfold reduce_point. rewrite E. cbn. destruct cur; reflexivity.
Qed.

(** A link from a merge vertex moves the two chains that wait there. *)
Lemma merge_gen : forall (pre : winding -> list pt) ty m p lim cs cur lo hi O D lt hb, desc cs (lo :: hi :: O) D -> (forall o, In o (lo :: hi :: O) -> full o) ->
  (forall c, merge_chain ty p lim c = Ok (mkMchain (c_int c) (c_other c) (pre (c_int c) ++ c_coords c) (c_done c))) ->
  ot lo = m :: lt -> ob hi = m :: hb -> hdb m (ob lo) = false -> hdb m (ot hi) = false -> (forall o, In o O -> off m o) ->
  exists cs', apply_link p ty (cs, cur) (LMerge m p lim) = Ok (cs', cur) /\ desc cs' (sett (pre Cw ++ m :: lt) lo :: setb (pre Ccw ++ m :: hb) hi :: O) D.
Proof.
  intros pre ty m p lim cs cur lo hi O D lt hb De Fu Mc E1 E2 N1 N2 Of.
  set (mv := fun c => mkMchain (c_int c) (c_other c) (pre (c_int c) ++ c_coords c) (c_done c)).
  assert (Pl : Permutation (sel (lk m) 0 cs) (chosen (lk m) (lo :: hi :: O))) by (apply (sel_desc _ _ _ _ De); intros c E; unfold lk; rewrite E; reflexivity).
  rewrite !chosen_cons, (chosen_off m O Of) in Pl. unfold lk at 2 3 4 5 in Pl. cbn [bch tch c_done c_coords negb andb] in Pl. rewrite N1, N2, E1, E2, !hdb_same in Pl. cbn [app] in Pl.
  exists (map (fun c => if lk m c then mv c else c) cs). split.
  - unfold apply_link. rewrite peqb_same. cbn [check bind]. rewrite (sel_merge ty m p lim (lk m) mv cs 0); [|apply (looks_ok _ _ _ De Fu)|intros; apply Mc].
    cbn [bind]. rewrite (Permutation_length Pl). reflexivity.
  - set (F := fun c => if lk m c then mv c else c). assert (Dm : desc (map F cs) (map (fun o => mkO (bi o) (ti o) (c_coords (F (bch false o))) (c_coords (F (tch false o)))) (lo :: hi :: O)) D).
    { apply (desc_map F cs _ D De).
      - intros c E. unfold F, lk. rewrite E. reflexivity.
      - intros c. unfold F. destruct (lk m c); auto. }
    assert (Fb : forall o, c_coords (F (bch false o)) = if hdb m (ob o) then pre Ccw ++ ob o else ob o) by (intros o; unfold F, lk; cbn [bch c_done c_coords negb andb]; destruct (hdb m (ob o)); reflexivity).
    assert (Ft : forall o, c_coords (F (tch false o)) = if hdb m (ot o) then pre Cw ++ ot o else ot o) by (intros o; unfold F, lk; cbn [tch c_done c_coords negb andb]; destruct (hdb m (ot o)); reflexivity).
    assert (Q : map (fun o => mkO (bi o) (ti o) (c_coords (F (bch false o))) (c_coords (F (tch false o)))) O = O).
    { rewrite <- (map_id O) at 2. apply map_ext_in. intros o I. destruct (Of o I) as [F1 F2]. rewrite Fb, Ft, F1, F2. apply mkO_eta. }
    cbn [map] in Dm. rewrite Q, !Fb, !Ft, N1, N2, E1, E2, !hdb_same in Dm. exact Dm.
Qed.
Lemma merge_link : forall ty m p lim cs cur lo hi O D lt hb, ty <> VSplit -> desc cs (lo :: hi :: O) D -> (forall o, In o (lo :: hi :: O) -> full o) ->
  ot lo = m :: lt -> ob hi = m :: hb -> hdb m (ob lo) = false -> hdb m (ot hi) = false -> (forall o, In o O -> off m o) ->
  exists cs', apply_link p ty (cs, cur) (LMerge m p lim) = Ok (cs', cur) /\ desc cs' (sett (p :: m :: lt) lo :: setb (p :: m :: hb) hi :: O) D.
Proof.
  intros ty m p lim cs cur lo hi O D lt hb Ty De Fu E1 E2 N1 N2 Of. apply (merge_gen (fun _ => [p]) ty m p lim cs cur lo hi O D lt hb); auto.
  intros c. unfold merge_chain, c_advance. destruct ty; try reflexivity. congruence.
Qed.

(** A link that continues a chain. *)
Lemma cont_top : forall p a z w cs cur o O D l, desc cs (o :: O) D -> (forall o', In o' (o :: O) -> full o') -> ot o = p :: a :: l ->
  (forall c, In c (bch false o :: map (bch false) O ++ map (tch false) O) -> oek a p c = false) ->
  exists cs', apply_link p VContinue (cs, cur) (LContinue a p z w) = Ok (cs', Some (ti o)) /\ desc cs' (sett (z :: p :: a :: l) o :: O) D.
Proof.
  intros p a z w cs cur o O D l De Fu E N. destruct (edge_sel cs _ D De Fu a p) as (L & E1 & P). rewrite chosen_cons in P. rewrite (N (bch false o)) in P by (left; auto).
  rewrite (chosen_none _ O) in P by (intros o' I; split; apply N; right; apply in_or_app; [left|right]; apply in_map; auto).
  assert (Q : oek a p (tch false o) = true) by (unfold oek, tch; cbn [c_done c_coords]; rewrite E; cbn [hdb sdb]; rewrite !peqb_same; reflexivity). rewrite Q in P. cbn [app] in P.
  exists (list_set (ti o) (mkMchain Cw (bi o) (z :: ot o) false) cs). split.
  - unfold apply_link. rewrite peqb_same. cbn [check bind]. rewrite E1, (hd_error_one _ _ P). cbn [bind expect]. unfold mchain_at. rewrite (proj2 (de_o _ _ _ De o (or_introl eq_refl))). reflexivity.
  - rewrite <- E. apply desc_sett. exact De.
Qed.
Lemma cont_bot : forall p a z w cs cur o O D l, desc cs (o :: O) D -> (forall o', In o' (o :: O) -> full o') -> ob o = p :: a :: l ->
  (forall c, In c (tch false o :: map (bch false) O ++ map (tch false) O) -> oek a p c = false) ->
  exists cs', apply_link p VContinue (cs, cur) (LContinue a p z w) = Ok (cs', Some (bi o)) /\ desc cs' (setb (z :: p :: a :: l) o :: O) D.
Proof.
  intros p a z w cs cur o O D l De Fu E N. destruct (edge_sel cs _ D De Fu a p) as (L & E1 & P). rewrite chosen_cons in P. rewrite (N (tch false o)) in P by (left; auto).
  rewrite (chosen_none _ O) in P by (intros o' I; split; apply N; right; apply in_or_app; [left|right]; apply in_map; auto).
  assert (Q : oek a p (bch false o) = true) by (unfold oek, bch; cbn [c_done c_coords]; rewrite E; cbn [hdb sdb]; rewrite !peqb_same; reflexivity). rewrite Q in P. cbn [app] in P.
  exists (list_set (bi o) (mkMchain Ccw (ti o) (z :: ob o) false) cs). split.
  - unfold apply_link. rewrite peqb_same. cbn [check bind]. rewrite E1, (hd_error_one _ _ P). cbn [bind expect]. unfold mchain_at. rewrite (proj1 (de_o _ _ _ De o (or_introl eq_refl))). reflexivity.
  - rewrite <- E. apply desc_setb. exact De.
Qed.

(** Finishing the pair that a continued chain belongs to. *)
Lemma reduce_top : forall p z cs lo hi O D l1 l2 l3, desc cs (lo :: hi :: O) D -> (forall o, In o (lo :: hi :: O) -> full o) ->
  ot lo = p :: l1 -> ob hi = p :: l2 -> ot hi = z :: p :: l3 -> hdb p (ob lo) = false -> z <> p -> (forall o, In o O -> off p o) ->
  exists cs', reduce_point p cs (Some (ti hi)) = Ok cs' /\ desc cs' (sett (z :: p :: l1) lo :: O) (sett (p :: l3) hi :: D).
Proof.
  intros p z cs lo hi O D l1 l2 l3 De Fu E1 E2 E3 N1 Nz Of. destruct (looks_sel cs _ D De Fu p) as (L & EL & P).
  rewrite !chosen_cons, (chosen_off p O Of) in P. unfold lk in P. cbn [bch tch c_done c_coords negb andb] in P. rewrite N1, E1, E2, E3, !hdb_same, (hdb_diff p z) in P by auto. cbn [app] in P.
  destruct (fresh_ids _ _ _ _ De) as [F1 F2]. destruct (F2 hi) as (A1 & A2 & A3 & A4); [left; auto|].
  assert (De2 : desc cs (hi :: lo :: O) D) by (apply (desc_perm _ _ _ _ _ De); auto; apply perm_swap).
  destruct (fresh_ids _ _ _ _ De2) as [F3 _].
  destruct (de_o _ _ _ De lo (or_introl eq_refl)) as [X1 Y1]. destruct (de_o _ _ _ De2 hi (or_introl eq_refl)) as [X2 Y2].
  assert (D1 := desc_sett _ _ _ _ (p :: l3) De2). destruct (desc_fin _ _ _ _ (ti hi) (bi hi) D1 (or_intror (conj eq_refl eq_refl))) as (cs2 & E4 & D2).
  assert (Y3 := proj2 (de_o _ _ _ D2 lo (or_introl eq_refl))). assert (D3 := desc_sett _ _ _ _ (z :: ot lo) D2). rewrite E1 in D3.
  exists (list_set (ti lo) (mkMchain Cw (bi lo) (z :: p :: l1) false) cs2). split; [|exact D3].
  unfold reduce_point. rewrite EL. cbn [bind]. rewrite (Permutation_length P). cbn [List.length Nat.modulo Nat.eqb check bind fst snd Nat.divmod Nat.sub].
  assert (C : forall l0 l1', L = [l0; l1'] -> (l0 = ti lo /\ l1' = bi hi) \/ (l0 = bi hi /\ l1' = ti lo)).
  { intros a b ->. apply perm_two in P as [P|P]; injection P as -> ->; auto. }
  destruct L as [|l0 [|l1' [|]]]; try (apply Permutation_length in P; discriminate P). cbn [check bind].
  assert (Fin : (let* cc := mchain_at cs (ti hi) in
      let* (cc', new_next) := c_pop cc in
      let* n1 := c_next cc' in
      let* cp := mchain_at (list_set (ti hi) cc' cs) (bi hi) in
      let* n2 := c_next cp in
      let* _ := check (peqb n1 n2) "chains.rs:247 debug_assert_eq" in
      let* cs3 := finish_both (ti hi) (bi hi) (list_set (ti hi) cc' cs) in
      let* co := mchain_at cs3 (ti lo) in
      Ok (list_set (ti lo) (c_advance new_next co) cs3)) = Ok (list_set (ti lo) (mkMchain Cw (bi lo) (z :: p :: l1) false) cs2)).
  { unfold mchain_at at 1. rewrite Y2. cbn [expect bind]. unfold c_pop, tch. cbn [c_coords c_int c_other c_done]. rewrite E3. cbn [bind c_next c_coords]. unfold mchain_at. rewrite list_set_other by auto. rewrite X2. cbn [expect bind]. unfold c_next at 1, bch. cbn [c_coords]. rewrite E2. cbn [bind].
    rewrite peqb_same. cbn [check bind]. cbn [sett ti bi] in E4. rewrite E4. cbn [bind]. rewrite Y3. cbn [expect bind]. unfold c_advance, tch. cbn [c_int c_other c_coords c_done]. rewrite E1. reflexivity. }
  destruct (C l0 l1' eq_refl) as [[-> ->]|[-> ->]].
  - unfold mchain_at at 1 2. rewrite Y1, X2. cbn [expect bind tch bch c_other]. destruct (Nat.eqb_spec (bi lo) (ti hi)) as [Q|Q]; [congruence|]. rewrite Nat.eqb_refl. cbn [bind]. exact Fin.
  - unfold mchain_at at 1 2. rewrite Y1, X2. cbn [expect bind tch bch c_other]. rewrite Nat.eqb_refl. cbn [bind]. exact Fin.
Qed.
Lemma reduce_bot : forall p z cs lo hi O D l1 l2 l3, desc cs (lo :: hi :: O) D -> (forall o, In o (lo :: hi :: O) -> full o) ->
  ot lo = p :: l1 -> ob hi = p :: l2 -> ob lo = z :: p :: l3 -> hdb p (ot hi) = false -> z <> p -> (forall o, In o O -> off p o) ->
  exists cs', reduce_point p cs (Some (bi lo)) = Ok cs' /\ desc cs' (setb (z :: p :: l2) hi :: O) (setb (p :: l3) lo :: D).
Proof.
  intros p z cs lo hi O D l1 l2 l3 De Fu E1 E2 E3 N1 Nz Of. destruct (looks_sel cs _ D De Fu p) as (L & EL & P).
  rewrite !chosen_cons, (chosen_off p O Of) in P. unfold lk in P. cbn [bch tch c_done c_coords negb andb] in P. rewrite N1, E1, E2, E3, !hdb_same, (hdb_diff p z) in P by auto. cbn [app] in P.
  destruct (fresh_ids _ _ _ _ De) as [F1 F2]. destruct (F2 hi) as (A1 & A2 & A3 & A4); [left; auto|].
  destruct (de_o _ _ _ De lo (or_introl eq_refl)) as [X1 Y1]. destruct (de_o _ _ _ De hi (or_intror (or_introl eq_refl))) as [X2 Y2].
  assert (D1 := desc_setb _ _ _ _ (p :: l3) De). destruct (desc_fin _ _ _ _ (bi lo) (ti lo) D1 (or_introl (conj eq_refl eq_refl))) as (cs2 & E4 & D2).
  assert (Y3 := proj1 (de_o _ _ _ D2 hi (or_introl eq_refl))). assert (D3 := desc_setb _ _ _ _ (z :: ob hi) D2). rewrite E2 in D3.
  exists (list_set (bi hi) (mkMchain Ccw (ti hi) (z :: p :: l2) false) cs2). split; [|exact D3].
  unfold reduce_point. rewrite EL. cbn [bind]. rewrite (Permutation_length P). cbn [List.length Nat.modulo Nat.eqb check bind fst snd Nat.divmod Nat.sub].
  assert (C : forall l0 l1', L = [l0; l1'] -> (l0 = ti lo /\ l1' = bi hi) \/ (l0 = bi hi /\ l1' = ti lo)).
  { intros a b ->. apply perm_two in P as [P|P]; injection P as -> ->; auto. }
  destruct L as [|l0 [|l1' [|]]]; try (apply Permutation_length in P; discriminate P). cbn [check bind].
  assert (Fin : (let* cc := mchain_at cs (bi lo) in
      let* (cc', new_next) := c_pop cc in
      let* n1 := c_next cc' in
      let* cp := mchain_at (list_set (bi lo) cc' cs) (ti lo) in
      let* n2 := c_next cp in
      let* _ := check (peqb n1 n2) "chains.rs:247 debug_assert_eq" in
      let* cs3 := finish_both (bi lo) (ti lo) (list_set (bi lo) cc' cs) in
      let* co := mchain_at cs3 (bi hi) in
      Ok (list_set (bi hi) (c_advance new_next co) cs3)) = Ok (list_set (bi hi) (mkMchain Ccw (ti hi) (z :: p :: l2) false) cs2)).
  { unfold mchain_at at 1. rewrite X1. cbn [expect bind]. unfold c_pop, bch. cbn [c_coords c_int c_other c_done]. rewrite E3. cbn [bind c_next c_coords]. unfold mchain_at. rewrite list_set_other by auto. rewrite Y1. cbn [expect bind]. unfold c_next at 1, tch. cbn [c_coords]. rewrite E1. cbn [bind].
    rewrite peqb_same. cbn [check bind]. cbn [setb ti bi] in E4. rewrite E4. cbn [bind]. rewrite Y3. cbn [expect bind]. unfold c_advance, bch. cbn [c_int c_other c_coords c_done]. rewrite E2. reflexivity. }
  destruct (C l0 l1' eq_refl) as [[-> ->]|[-> ->]].
  - unfold mchain_at at 1 2. rewrite Y1, X2. cbn [expect bind tch bch c_other]. rewrite Nat.eqb_refl. cbn [bind]. exact Fin.
  - unfold mchain_at at 1 2. rewrite Y1, X2. cbn [expect bind tch bch c_other]. destruct (Nat.eqb_spec (ti hi) (bi lo)) as [Q|Q]; [congruence|]. rewrite Nat.eqb_refl. cbn [bind]. exact Fin.
Qed.

(** * The events *)
Lemma ev_start : forall p zt zb cs O D, desc cs O D -> (forall o, In o O -> full o) -> (forall o, In o O -> off p o) -> zt <> p -> zb <> p ->
  exists cs' o, chain_event cs (mkSweepEvent p VStart [LStart p zt zb]) = Ok cs' /\ desc cs' (o :: O) D /\ ob o = [zb; p] /\ ot o = [zt; p].
Proof.
  intros p zt zb cs O D De Fu Of N1 N2. set (o := mkO (S (List.length cs)) (List.length cs) [zb; p] [zt; p]).
  assert (Dn := desc_new cs O D o false De (conj eq_refl eq_refl)). exists (cs ++ [tch false o; bch false o]), o. split; [|auto].
  unfold chain_event. cbn [se_pt se_ty se_links fold_res apply_link]. rewrite peqb_same. cbn [check bind mchain_new List.length Nat.ltb Nat.leb rev app].
  apply (reduce_idle _ _ (o :: O) D); auto.
  - intros o' [<-|I]; auto. split; cbn; lia.
  - intros o' [<-|I]; auto. split; apply hdb_diff; auto.
Qed.
Lemma ev_end_one : forall p links cs o O D l1 l2, links = [] \/ (exists a b, links = [LEnd a b p]) -> desc cs (o :: O) D -> (forall o', In o' (o :: O) -> full o') -> (forall o', In o' O -> off p o') ->
  ob o = p :: l1 -> ot o = p :: l2 -> exists cs', chain_event cs (mkSweepEvent p VEnd links) = Ok cs' /\ desc cs' O (o :: D).
Proof.
  intros p links cs o O D l1 l2 Lk De Fu Of E1 E2.
  destruct (reduce_none p cs _ D De Fu) as (cs' & R1 & R2).
  { rewrite chosen_cons, (chosen_off p O Of). unfold lk. cbn [bch tch c_done c_coords negb andb]. rewrite E1, E2, !hdb_same. reflexivity. }
  exists cs'. split.
  - unfold chain_event. cbn [se_pt se_ty se_links]. destruct Lk as [->|(a & b & ->)]; cbn [fold_res apply_link bind]; [exact R1|]. rewrite peqb_same. cbn [check bind]. exact R1.
  - cbn [filter] in R2. assert (Q : closed p o = true) by (unfold closed; rewrite E1, E2, !hdb_same; reflexivity). rewrite Q in R2. cbn [negb app] in R2.
    rewrite filter_all, filter_none in R2; auto; intros o' I; destruct (Of o' I) as [F1 F2]; unfold closed; rewrite F1; reflexivity.
Qed.
Lemma ev_end_two : forall p m lim a b cs lo hi O D l1 l2 l3 l4, desc cs (lo :: hi :: O) D -> (forall o', In o' (lo :: hi :: O) -> full o') ->
  (forall o', In o' O -> off p o') -> (forall o', In o' O -> off m o') -> p <> m ->
  ob lo = p :: l1 -> ot lo = m :: l2 -> ob hi = m :: l3 -> ot hi = p :: l4 ->
  exists cs', chain_event cs (mkSweepEvent p VEnd [LMerge m p lim; LEnd a b p]) = Ok cs' /\ desc cs' O (sett (p :: m :: l2) lo :: setb (p :: m :: l3) hi :: D).
Proof.
  intros p m lim a b cs lo hi O D l1 l2 l3 l4 De Fu Of Om N E1 E2 E3 E4.
  destruct (merge_link VEnd m p lim cs None lo hi O D l2 l3) as (cs1 & R1 & D1); auto; try discriminate; [rewrite E1; apply hdb_diff; auto|rewrite E4; apply hdb_diff; auto|].
  assert (Fu1 : forall o', In o' (sett (p :: m :: l2) lo :: setb (p :: m :: l3) hi :: O) -> full o').
  { intros o' [<-|[<-|I]]; [split; [apply (Fu lo); left; auto|cbn; lia]|split; [cbn; lia|apply (Fu hi); right; left; auto]|apply Fu; right; right; auto]. }
  destruct (reduce_none p cs1 _ D D1 Fu1) as (cs' & R2 & D2).
  { rewrite !chosen_cons, (chosen_off p O Of). unfold lk. cbn [bch tch c_done c_coords negb andb sett setb ob ot]. rewrite E1, E4, !hdb_same. reflexivity. }
  exists cs'. split.
  - unfold chain_event. cbn [se_pt se_ty se_links fold_res]. rewrite R1. cbn [bind fold_res apply_link]. rewrite peqb_same. cbn [check bind]. exact R2.
  - cbn [filter] in D2. unfold closed in D2. cbn [sett setb ob ot] in D2. rewrite E1, E4, !hdb_same in D2. cbn [negb andb app] in D2.
    rewrite filter_all, filter_none in D2; auto; intros o' I; destruct (Of o' I) as [F1 F2]; rewrite F1; reflexivity.
Qed.
Lemma oek_off : forall a p o, off p o -> oek a p (bch false o) = false /\ oek a p (tch false o) = false.
Proof. intros a p o [F1 F2]. unfold oek, bch, tch. cbn [c_done c_coords]. rewrite F1, F2. auto. Qed.
Lemma off_list : forall a p O c, (forall o, In o O -> off p o) -> In c (map (bch false) O ++ map (tch false) O) -> oek a p c = false.
Proof. intros a p O c F I. apply in_app_or in I as [I|I]; apply in_map_iff in I as (o & <- & I); apply (oek_off a p o (F o I)). Qed.
Lemma ev_top_one : forall p a z w cs o O D l, desc cs (o :: O) D -> (forall o', In o' (o :: O) -> full o') -> (forall o', In o' O -> off p o') -> z <> p ->
  ot o = p :: a :: l -> hdb p (ob o) = false ->
  exists cs', chain_event cs (mkSweepEvent p VContinue [LContinue a p z w]) = Ok cs' /\ desc cs' (sett (z :: p :: a :: l) o :: O) D.
Proof.
  intros p a z w cs o O D l De Fu Of N E F. destruct (cont_top p a z w cs None o O D l De Fu E) as (cs' & R & D1).
  { intros c [<-|I]; [unfold oek, bch; cbn [c_done c_coords]; rewrite F; reflexivity|apply (off_list a p O c Of I)]. }
  exists cs'. split; auto. unfold chain_event. cbn [se_pt se_ty se_links fold_res]. rewrite R. cbn [bind]. apply (reduce_idle _ _ _ D _ D1).
  - intros o' [<-|I]; [|apply Fu; right; auto]. split; [apply (Fu o); left; auto|cbn; lia].
  - intros o' [<-|I]; auto. split; cbn [sett ob ot]; [auto|apply hdb_diff; auto].
Qed.
Lemma ev_bot_one : forall p a z w cs o O D l, desc cs (o :: O) D -> (forall o', In o' (o :: O) -> full o') -> (forall o', In o' O -> off p o') -> z <> p ->
  ob o = p :: a :: l -> hdb p (ot o) = false ->
  exists cs', chain_event cs (mkSweepEvent p VContinue [LContinue a p z w]) = Ok cs' /\ desc cs' (setb (z :: p :: a :: l) o :: O) D.
Proof.
  intros p a z w cs o O D l De Fu Of N E F. destruct (cont_bot p a z w cs None o O D l De Fu E) as (cs' & R & D1).
  { intros c [<-|I]; [unfold oek, tch; cbn [c_done c_coords]; rewrite F; reflexivity|apply (off_list a p O c Of I)]. }
  exists cs'. split; auto. unfold chain_event. cbn [se_pt se_ty se_links fold_res]. rewrite R. cbn [bind]. apply (reduce_idle _ _ _ D _ D1).
  - intros o' [<-|I]; [|apply Fu; right; auto]. split; [cbn; lia|apply (Fu o); left; auto].
  - intros o' [<-|I]; auto. split; cbn [setb ob ot]; [apply hdb_diff; auto|auto].
Qed.
Lemma ev_top_two : forall p m lim a z w cs lo hi O D l2 l3 l4, desc cs (lo :: hi :: O) D -> (forall o', In o' (lo :: hi :: O) -> full o') ->
  (forall o', In o' O -> off p o') -> (forall o', In o' O -> off m o') -> p <> m -> a <> m -> z <> p ->
  hdb p (ob lo) = false -> hdb m (ob lo) = false -> ot lo = m :: l2 -> ob hi = m :: l3 -> ot hi = p :: a :: l4 ->
  exists cs', chain_event cs (mkSweepEvent p VContinue [LMerge m p lim; LContinue a p z w]) = Ok cs' /\
    desc cs' (sett (z :: p :: m :: l2) lo :: O) (mkO (bi hi) (ti hi) (p :: m :: l3) (p :: a :: l4) :: D).
Proof.
  intros p m lim a z w cs lo hi O D l2 l3 l4 De Fu Of Om N Na Nz F1 F2 E2 E3 E4.
  destruct (merge_link VContinue m p lim cs None lo hi O D l2 l3) as (cs1 & R1 & D1); auto; try discriminate; [rewrite E4; apply hdb_diff; auto|].
  assert (Fl := Fu lo (or_introl eq_refl)). assert (Fh := Fu hi (or_intror (or_introl eq_refl))).
  assert (D1' := desc_perm _ _ _ _ _ D1 (perm_swap _ _ _) (Permutation_refl D)).
  destruct (cont_top p a z w cs1 None (setb (p :: m :: l3) hi) (sett (p :: m :: l2) lo :: O) D l4 D1') as (cs2 & R2 & D2).
  { intros o' [<-|[<-|I]]; [split; [cbn; lia|apply Fh]|split; [apply Fl|cbn; lia]|apply Fu; right; right; auto]. }
  { exact E4. }
  { assert (Qm : peqb m a = false) by (apply peqb_false; auto). intros c [<-|I]; [unfold oek, bch; cbn [c_done c_coords setb ob sdb hdb]; rewrite Qm, !andb_false_r; reflexivity|]. cbn [map app] in I. destruct I as [<-|I].
    - unfold oek, bch. cbn [c_done c_coords sett ob]. rewrite F1. reflexivity.
    - apply in_app_or in I as [I|[<-|I]].
      + apply (off_list a p O c Of). apply in_or_app; auto.
      + unfold oek, tch. cbn [c_done c_coords sett ot sdb hdb]. rewrite Qm, !andb_false_r. reflexivity.
      + apply (off_list a p O c Of). apply in_or_app; auto. }
  assert (D2' := desc_perm _ _ _ _ _ D2 (perm_swap _ _ _) (Permutation_refl D)).
  destruct (reduce_top p z cs2 _ _ O D (m :: l2) (m :: l3) (a :: l4) D2') as (cs3 & R3 & D3); auto.
  { intros o' [<-|[<-|I]]; [split; [apply Fl|cbn; lia]|split; cbn; lia|apply Fu; right; right; auto]. }
  exists cs3. split; [|exact D3]. unfold chain_event. cbn [se_pt se_ty se_links fold_res]. rewrite R1. cbn [bind]. rewrite R2. cbn [bind]. exact R3.
Qed.
Lemma ev_bot_two : forall p m lim a z w cs lo hi O D l2 l3 l4, desc cs (lo :: hi :: O) D -> (forall o', In o' (lo :: hi :: O) -> full o') ->
  (forall o', In o' O -> off p o') -> (forall o', In o' O -> off m o') -> p <> m -> a <> m -> z <> p ->
  hdb p (ot hi) = false -> hdb m (ot hi) = false -> ot lo = m :: l2 -> ob hi = m :: l3 -> ob lo = p :: a :: l4 ->
  exists cs', chain_event cs (mkSweepEvent p VContinue [LMerge m p lim; LContinue a p z w]) = Ok cs' /\
    desc cs' (setb (z :: p :: m :: l3) hi :: O) (mkO (bi lo) (ti lo) (p :: a :: l4) (p :: m :: l2) :: D).
Proof.
  intros p m lim a z w cs lo hi O D l2 l3 l4 De Fu Of Om N Na Nz F1 F2 E2 E3 E4.
  destruct (merge_link VContinue m p lim cs None lo hi O D l2 l3) as (cs1 & R1 & D1); auto; try discriminate; [rewrite E4; apply hdb_diff; auto|].
  assert (Fl := Fu lo (or_introl eq_refl)). assert (Fh := Fu hi (or_intror (or_introl eq_refl))).
  destruct (cont_bot p a z w cs1 None (sett (p :: m :: l2) lo) (setb (p :: m :: l3) hi :: O) D l4 D1) as (cs2 & R2 & D2).
  { intros o' [<-|[<-|I]]; [split; [apply Fl|cbn; lia]|split; [cbn; lia|apply Fh]|apply Fu; right; right; auto]. }
  { exact E4. }
  { assert (Qm : peqb m a = false) by (apply peqb_false; auto). intros c [<-|I]; [unfold oek, tch; cbn [c_done c_coords sett ot sdb hdb]; rewrite Qm, !andb_false_r; reflexivity|]. cbn [map app] in I. destruct I as [<-|I].
    - unfold oek, bch. cbn [c_done c_coords setb ob hdb sdb]. rewrite Qm, !andb_false_r. reflexivity.
    - apply in_app_or in I as [I|[<-|I]].
      + apply (off_list a p O c Of). apply in_or_app; auto.
      + unfold oek, tch. cbn [c_done c_coords setb ot]. rewrite F1. reflexivity.
      + apply (off_list a p O c Of). apply in_or_app; auto. }
  destruct (reduce_bot p z cs2 _ _ O D (m :: l2) (m :: l3) (a :: l4) D2) as (cs3 & R3 & D3); auto.
  { intros o' [<-|[<-|I]]; [split; cbn; lia|split; [cbn; lia|apply Fh]|apply Fu; right; right; auto]. }
  exists cs3. split; [|exact D3]. unfold chain_event. cbn [se_pt se_ty se_links fold_res]. rewrite R1. cbn [bind]. rewrite R2. cbn [bind]. exact R3.
Qed.
Lemma ev_split_two : forall p m zb zt cs lo hi O D l2 l3, desc cs (lo :: hi :: O) D -> (forall o', In o' (lo :: hi :: O) -> full o') ->
  (forall o', In o' (lo :: hi :: O) -> off p o') -> (forall o', In o' O -> off m o') -> zb <> p -> zt <> p ->
  hdb m (ob lo) = false -> hdb m (ot hi) = false -> ot lo = m :: l2 -> ob hi = m :: l3 ->
  exists cs', chain_event cs (mkSweepEvent p VSplit [LMerge m p (Some (zb, zt))]) = Ok cs' /\
    desc cs' (sett (zt :: p :: m :: l2) lo :: setb (zb :: p :: m :: l3) hi :: O) D.
Proof.
  intros p m zb zt cs lo hi O D l2 l3 De Fu Of Om Nb Nt F1 F2 E1 E2.
  destruct (merge_gen (fun w => match w with Cw => [zt; p] | Ccw => [zb; p] end) VSplit m p (Some (zb, zt)) cs None lo hi O D l2 l3) as (cs1 & R1 & D1); auto.
  { intros c. unfold merge_chain, c_advance. cbn [bind expect]. destruct (c_int c); reflexivity. }
  exists cs1. split; [|exact D1]. unfold chain_event. cbn [se_pt se_ty se_links fold_res]. rewrite R1. cbn [bind]. apply (reduce_idle _ _ _ D _ D1).
  - intros o' [<-|[<-|I]]; [split; [apply (Fu lo); left; auto|cbn; lia]|split; [cbn; lia|apply (Fu hi); right; left; auto]|apply Fu; right; right; auto].
  - intros o' [<-|[<-|I]]; [split; [apply (Of lo); left; auto|apply hdb_diff; auto]|split; [apply hdb_diff; auto|apply (Of hi); right; left; auto]|apply Of; right; right; auto].
Qed.
(** A link that splits a chain. *)
Lemma ev_split_b : forall p h zb zt z cs o O D l, desc cs (o :: O) D -> (forall o', In o' (o :: O) -> full o') -> (forall o', In o' (o :: O) -> off p o') ->
  zb <> p -> zt <> p -> ob o = z :: h :: l -> orient2d p h z = CounterClockwise ->
  Permutation (chosen (sk h) (o :: O)) [bi o] \/ (exists o', In o' (o :: O) /\ Permutation (chosen (sk h) (o :: O)) [bi o; ti o']) ->
  exists cs' o2, chain_event cs (mkSweepEvent p VSplit [LSplit h p zb zt]) = Ok cs' /\
    desc cs' (o2 :: setb (zb :: p :: h :: l) o :: O) D /\ ob o2 = [z; h] /\ ot o2 = [zt; p; h].
Proof.
  intros p h zb zt z cs o O D l De Fu Of Nb Nt E Or Ch. destruct (de_o _ _ _ De o (or_introl eq_refl)) as [X Y].
  assert (Sp : split_position h p cs = Ok (bi o)).
  { destruct (stands_sel cs _ D De Fu h) as (L & EL & P). unfold split_position. rewrite EL. cbn [bind]. destruct Ch as [Ch|(o' & I' & Ch)]; rewrite Ch in P.
    - apply perm_one in P. subst L. reflexivity.
    - destruct (de_o _ _ _ De o' I') as [X' Y']. apply perm_two in P as [-> | ->].
      + unfold mchain_at. rewrite X, Y'. cbn [expect bind bch c_int winding_eqb]. rewrite X. cbn [expect bind]. unfold c_next, bch. cbn [c_coords]. rewrite E. cbn [bind]. rewrite Or. reflexivity.
      + unfold mchain_at. rewrite X, Y'. cbn [expect bind bch tch c_int winding_eqb check]. rewrite X. cbn [expect bind]. unfold c_next, bch. cbn [c_coords]. rewrite E. cbn [bind]. rewrite Or. reflexivity. }
  set (o2 := mkO (List.length cs) (S (List.length cs)) [z; h] [zt; p; h]).
  assert (D1 := desc_setb _ _ _ _ (zb :: p :: h :: l) De). assert (Q : List.length (list_set (bi o) (mkMchain Ccw (ti o) (zb :: p :: h :: l) false) cs) = List.length cs) by apply list_set_length.
  assert (D2 := desc_new _ _ D o2 true D1). rewrite Q in D2. specialize (D2 (conj eq_refl eq_refl)). cbv iota in D2.
  eexists _, o2. split; [|split; [exact D2|auto]]. unfold chain_event. cbn [se_pt se_ty se_links fold_res apply_link]. rewrite peqb_same. cbn [check bind]. rewrite Sp. cbn [bind]. unfold mchain_at. rewrite X. cbn [expect bind]. unfold c_pop, bch. cbn [c_coords c_int c_other c_done]. rewrite E. cbn [bind].
  unfold c_advance. cbn [c_coords c_int c_other c_done]. rewrite Q. cbn [mchain_new List.length Nat.ltb Nat.leb check bind rev app winding_inverse].
  change (mkMchain Ccw (S (List.length cs)) [z; h] false) with (bch false o2). change (mkMchain Cw (List.length cs) [zt; p; h] false) with (tch false o2).
  apply (reduce_idle _ _ _ D _ D2).
  - intros o' [<-|[<-|I]]; [split; cbn; lia|split; [cbn; lia|apply (Fu o); left; auto]|apply Fu; right; auto].
  - intros o' [<-|[<-|I]]; [|split; [apply hdb_diff; auto|apply (Of o); left; auto]|apply Of; right; auto].
    split; [|apply hdb_diff; auto]. destruct (Of o (or_introl eq_refl)) as [Q1 _]. rewrite E in Q1. exact Q1.
Qed.
Lemma ev_split_t : forall p h zb zt z cs o O D l, desc cs (o :: O) D -> (forall o', In o' (o :: O) -> full o') -> (forall o', In o' (o :: O) -> off p o') ->
  zb <> p -> zt <> p -> ot o = z :: h :: l ->
  Permutation (chosen (sk h) (o :: O)) [ti o] \/ (exists o' z' l', In o' (o :: O) /\ Permutation (chosen (sk h) (o :: O)) [ti o; bi o'] /\ ob o' = z' :: l' /\ orient2d p h z' <> CounterClockwise) ->
  exists cs' o2, chain_event cs (mkSweepEvent p VSplit [LSplit h p zb zt]) = Ok cs' /\
    desc cs' (o2 :: sett (zt :: p :: h :: l) o :: O) D /\ ot o2 = [z; h] /\ ob o2 = [zb; p; h].
Proof.
  intros p h zb zt z cs o O D l De Fu Of Nb Nt E Ch. destruct (de_o _ _ _ De o (or_introl eq_refl)) as [X Y].
  assert (Sp : split_position h p cs = Ok (ti o)).
  { destruct (stands_sel cs _ D De Fu h) as (L & EL & P). unfold split_position. rewrite EL. cbn [bind]. destruct Ch as [Ch|(o' & z' & l' & I' & Ch & E' & Or)]; rewrite Ch in P.
    - apply perm_one in P. subst L. reflexivity.
    - destruct (de_o _ _ _ De o' I') as [X' Y']. apply perm_two in P as [-> | ->].
      + unfold mchain_at. rewrite X', Y. cbn [expect bind bch tch c_int winding_eqb check]. rewrite X'. cbn [expect bind]. unfold c_next, bch. cbn [c_coords]. rewrite E'. cbn [bind]. destruct (orient2d p h z'); congruence.
      + unfold mchain_at. rewrite X', Y. cbn [expect bind bch tch c_int winding_eqb check]. rewrite X'. cbn [expect bind]. unfold c_next, bch. cbn [c_coords]. rewrite E'. cbn [bind]. destruct (orient2d p h z'); congruence. }
  set (o2 := mkO (S (List.length cs)) (List.length cs) [zb; p; h] [z; h]).
  assert (D1 := desc_sett _ _ _ _ (zt :: p :: h :: l) De). assert (Q : List.length (list_set (ti o) (mkMchain Cw (bi o) (zt :: p :: h :: l) false) cs) = List.length cs) by apply list_set_length.
  assert (D2 := desc_new _ _ D o2 false D1). rewrite Q in D2. specialize (D2 (conj eq_refl eq_refl)). cbv iota in D2.
  eexists _, o2. split; [|split; [exact D2|auto]]. unfold chain_event. cbn [se_pt se_ty se_links fold_res apply_link]. rewrite peqb_same. cbn [check bind]. rewrite Sp. cbn [bind]. unfold mchain_at. rewrite Y. cbn [expect bind]. unfold c_pop, tch. cbn [c_coords c_int c_other c_done]. rewrite E. cbn [bind].
  unfold c_advance. cbn [c_coords c_int c_other c_done]. rewrite Q. cbn [mchain_new List.length Nat.ltb Nat.leb check bind rev app winding_inverse].
  change (mkMchain Cw (S (List.length cs)) [z; h] false) with (tch false o2). change (mkMchain Ccw (List.length cs) [zb; p; h] false) with (bch false o2).
  apply (reduce_idle _ _ _ D _ D2).
  - intros o' [<-|[<-|I]]; [split; cbn; lia|split; [apply (Fu o); left; auto|cbn; lia]|apply Fu; right; auto].
  - intros o' [<-|[<-|I]]; [|split; [apply (Of o); left; auto|apply hdb_diff; auto]|apply Of; right; auto].
    split; [apply hdb_diff; auto|]. destruct (Of o (or_introl eq_refl)) as [_ Q1]. rewrite E in Q1. exact Q1.
Qed.

(** ** Merge *)
Lemma full_sett : forall o a b l, full o -> full (sett (a :: b :: l) o). Proof. intros o a b l [F1 F2]. split; auto. cbn; lia. Qed.
Lemma full_setb : forall o a b l, full o -> full (setb (a :: b :: l) o). Proof. intros o a b l [F1 F2]. split; auto. cbn; lia. Qed.
Lemma filter_off : forall p O, (forall o, In o O -> off p o) -> filter (fun o => negb (closed p o)) O = O /\ filter (closed p) O = [].
Proof.
  intros p O F. split; [apply filter_all|apply filter_none]; intros o I; destruct (F o I) as [F1 F2]; unfold closed; rewrite F1; reflexivity.
Qed.
Section Merge.
Variables (p : pt) (O D : list opair) (cs : list mchain).
Hypothesis Fu : forall o, In o O -> full o.
Hypothesis Of : forall o, In o O -> off p o.
(** The pairs below and above the merge vertex. *)
Definition below (o : opair) : Prop := full o /\ hdb p (ob o) = false /\ hdb p (ot o) = true.
Definition above (o : opair) : Prop := full o /\ hdb p (ob o) = true /\ hdb p (ot o) = false.
Definition both (o : opair) : Prop := full o /\ hdb p (ob o) = true /\ hdb p (ot o) = true.
Lemma merge_reduce : forall a b B cs1, desc cs1 (a :: b :: B ++ O) D -> below a -> above b -> (forall o, In o B -> both o) ->
  exists cs', reduce_point p cs1 None = Ok cs' /\ desc cs' (a :: b :: O) (B ++ D).
Proof.
  intros a b B cs1 De (A1 & A2 & A3) (B1 & B2 & B3) Bo.
  assert (Fa : forall o, In o (a :: b :: B ++ O) -> full o).
  { intros o [<-|[<-|I]]; auto. apply in_app_or in I as [I|I]; auto. apply Bo; auto. }
  assert (Ch : List.length (chosen (lk p) (a :: b :: B ++ O)) = 2 + 2 * List.length B).
  { rewrite !chosen_cons. unfold lk at 1 2 3 4. cbn [bch tch c_done c_coords negb andb]. rewrite A2, A3, B2, B3. cbn [app List.length]. f_equal. f_equal.
    clear - Bo Of. induction B as [|o B IH]; [cbn [app]; rewrite chosen_off; auto|]. cbn [app]. rewrite chosen_cons. unfold lk at 1 2. cbn [bch tch c_done c_coords negb andb].
    destruct (Bo o (or_introl eq_refl)) as (_ & Q1 & Q2). rewrite Q1, Q2. cbn [app List.length]. rewrite IH by (intros; apply Bo; right; auto). lia. }
  destruct (reduce_none p cs1 _ D De Fa) as (cs' & R1 & R2).
  { rewrite Ch. replace (2 + 2 * List.length B) with (0 + (1 + List.length B) * 2) by lia. apply Nat.mod_add. discriminate. }
  exists cs'. split; auto. assert (Ca : closed p a = false) by (unfold closed; rewrite A2; reflexivity). assert (Cb : closed p b = false) by (unfold closed; rewrite B2, B3; reflexivity). cbn [filter] in R2. rewrite Ca, Cb in R2. cbn [andb negb] in R2. rewrite !filter_app in R2. destruct (filter_off p O Of) as [Q1 Q2]. rewrite Q1, Q2 in R2.
  rewrite (filter_none _ B), (filter_all _ B), app_nil_r in R2; [exact R2| |]; intros o I; destruct (Bo o I) as (_ & Q3 & Q4); unfold closed; rewrite Q3, Q4; reflexivity.
Qed.
Lemma ev_merge_11 : forall o1 o2, desc cs (o1 :: o2 :: O) D -> below o1 -> above o2 ->
  exists cs', chain_event cs (mkSweepEvent p VMerge []) = Ok cs' /\ desc cs' (o1 :: o2 :: O) D.
Proof.
  intros o1 o2 De B A. destruct (merge_reduce o1 o2 [] cs De B A) as (cs' & R1 & R2); [intros o []|]. exists cs'. split; auto.
Qed.
Lemma ev_merge_21 : forall lo hi o2 m lim l2 l3, desc cs (lo :: hi :: o2 :: O) D -> full lo -> full hi -> above o2 -> (forall o, In o (o2 :: O) -> off m o) -> p <> m ->
  hdb p (ob lo) = false -> hdb m (ob lo) = false -> ot lo = m :: l2 -> ob hi = m :: l3 -> hdb p (ot hi) = true ->
  exists cs', chain_event cs (mkSweepEvent p VMerge [LMerge m p lim]) = Ok cs' /\ desc cs' (sett (p :: m :: l2) lo :: o2 :: O) (setb (p :: m :: l3) hi :: D).
Proof.
  intros lo hi o2 m lim l2 l3 De Fl Fh A Om N N1 N2 E1 E2 E3.
  destruct (merge_link VMerge m p lim cs None lo hi (o2 :: O) D l2 l3) as (cs1 & R1 & D1); auto; try discriminate.
  { intros o [<-|[<-|[<-|I]]]; auto. apply A. }
  { destruct (ot hi) as [|q l]; auto. cbn [hdb] in *. apply peqb_iff in E3. subst q. apply peqb_false; auto. }
  assert (D1' := desc_perm _ _ (sett (p :: m :: l2) lo :: o2 :: [setb (p :: m :: l3) hi] ++ O) _ _ D1 (perm_skip _ (perm_swap _ _ _)) (Permutation_refl D)).
  destruct (merge_reduce _ _ _ cs1 D1') as (cs' & R2 & D2); auto.
  { split; [apply full_sett; auto|]. split; [auto|apply hdb_same]. }
  { intros o [<-|[]]. split; [apply full_setb; auto|]. split; [apply hdb_same|auto]. }
  exists cs'. split; auto. unfold chain_event. cbn [se_pt se_ty se_links fold_res]. rewrite R1. cbn [bind]. exact R2.
Qed.
Lemma ev_merge_12 : forall o1 lo hi m lim l2 l3, desc cs (o1 :: lo :: hi :: O) D -> full lo -> full hi -> below o1 -> (forall o, In o (o1 :: O) -> off m o) -> p <> m ->
  hdb p (ob lo) = true -> ot lo = m :: l2 -> ob hi = m :: l3 -> hdb p (ot hi) = false -> hdb m (ot hi) = false ->
  exists cs', chain_event cs (mkSweepEvent p VMerge [LMerge m p lim]) = Ok cs' /\ desc cs' (o1 :: setb (p :: m :: l3) hi :: O) (sett (p :: m :: l2) lo :: D).
Proof.
  intros o1 lo hi m lim l2 l3 De Fl Fh A Om N N1 E1 E2 E3 E4.
  assert (De' : desc cs (lo :: hi :: o1 :: O) D) by (apply (desc_perm _ _ _ _ _ De); auto; rewrite perm_swap; apply perm_skip, perm_swap).
  destruct (merge_link VMerge m p lim cs None lo hi (o1 :: O) D l2 l3) as (cs1 & R1 & D1); auto; try discriminate.
  { intros o [<-|[<-|[<-|I]]]; auto. apply A. }
  { destruct (ob lo) as [|q l]; auto. cbn [hdb] in *. apply peqb_iff in N1. subst q. apply peqb_false; auto. }
  assert (D1' : desc cs1 (o1 :: setb (p :: m :: l3) hi :: [sett (p :: m :: l2) lo] ++ O) D).
  { apply (desc_perm _ _ _ _ _ D1); auto. cbn [app]. set (a := sett (p :: m :: l2) lo). set (b := setb (p :: m :: l3) hi). apply (perm_trans (l' := b :: a :: o1 :: O)); [apply perm_swap|]. apply (perm_trans (l' := b :: o1 :: a :: O)); [apply perm_skip, perm_swap|apply perm_swap]. }
  destruct (merge_reduce _ _ _ cs1 D1') as (cs' & R2 & D2); auto.
  { split; [apply full_setb; auto|]. split; [apply hdb_same|auto]. }
  { intros o [<-|[]]. split; [apply full_sett; auto|]. split; [auto|apply hdb_same]. }
  exists cs'. split; auto. unfold chain_event. cbn [se_pt se_ty se_links fold_res]. rewrite R1. cbn [bind]. exact R2.
Qed.
Lemma ev_merge_22 : forall lo hi m lim l2 l3 lo' hi' m' lim' l2' l3', desc cs (lo :: hi :: lo' :: hi' :: O) D -> full lo -> full hi -> full lo' -> full hi' ->
  (forall o, In o (lo' :: hi' :: O) -> off m o) -> (forall o, In o (lo :: hi :: O) -> hdb m' (ob o) = false /\ hdb m' (ot o) = false) -> (forall o, In o O -> off m' o) -> p <> m -> p <> m' -> m <> m' ->
  hdb p (ob lo) = false -> hdb m (ob lo) = false -> ot lo = m :: l2 -> ob hi = m :: l3 -> hdb p (ot hi) = true ->
  hdb p (ob lo') = true -> ot lo' = m' :: l2' -> ob hi' = m' :: l3' -> hdb p (ot hi') = false -> hdb m' (ot hi') = false ->
  exists cs', chain_event cs (mkSweepEvent p VMerge [LMerge m p lim; LMerge m' p lim']) = Ok cs' /\
    desc cs' (sett (p :: m :: l2) lo :: setb (p :: m' :: l3') hi' :: O) (setb (p :: m :: l3) hi :: sett (p :: m' :: l2') lo' :: D).
Proof.
  intros lo hi m lim l2 l3 lo' hi' m' lim' l2' l3' De Fl Fh Fl' Fh' Om Om1 Om2 N N' Nm N1 N2 E1 E2 E3 N1' E1' E2' E3' E4'.
  destruct (merge_link VMerge m p lim cs None lo hi (lo' :: hi' :: O) D l2 l3) as (cs1 & R1 & D1); auto; try discriminate.
  { intros o [<-|[<-|[<-|[<-|I]]]]; auto. }
  { destruct (ot hi) as [|q l]; auto. cbn [hdb] in *. apply peqb_iff in E3. subst q. apply peqb_false; auto. }
  destruct (Om1 lo) as [Q1 Q2]; [left; auto|]. destruct (Om1 hi) as [Q3 Q4]; [right; left; auto|].
  assert (D1' : desc cs1 (lo' :: hi' :: sett (p :: m :: l2) lo :: setb (p :: m :: l3) hi :: O) D).
  { apply (desc_perm _ _ _ _ _ D1); auto. change (Permutation ([sett (p :: m :: l2) lo; setb (p :: m :: l3) hi] ++ [lo'; hi'] ++ O) ([lo'; hi'] ++ [sett (p :: m :: l2) lo; setb (p :: m :: l3) hi] ++ O)). rewrite !app_assoc. apply Permutation_app_tail, Permutation_app_comm. }
  destruct (merge_link VMerge m' p lim' cs1 None lo' hi' (sett (p :: m :: l2) lo :: setb (p :: m :: l3) hi :: O) D l2' l3') as (cs2 & R2 & D2); auto; try discriminate.
  { intros o [<-|[<-|[<-|[<-|I]]]]; auto using full_sett, full_setb. }
  { destruct (ob lo') as [|q l]; auto. cbn [hdb] in *. apply peqb_iff in N1'. subst q. apply peqb_false; auto. }
  { intros o [<-|[<-|I]]; auto; split; cbn [sett setb ob ot]; auto; apply hdb_diff; auto. }
  assert (D2' : desc cs2 (sett (p :: m :: l2) lo :: setb (p :: m' :: l3') hi' :: [setb (p :: m :: l3) hi; sett (p :: m' :: l2') lo'] ++ O) D).
  { apply (desc_perm _ _ _ _ _ D2); auto. cbn [app].
    set (a := sett (p :: m :: l2) lo). set (b := setb (p :: m' :: l3') hi'). set (c := setb (p :: m :: l3) hi). set (d := sett (p :: m' :: l2') lo').
    change (Permutation ([d; b; a; c] ++ O) ([a; b; c; d] ++ O)). apply Permutation_app_tail.
    apply (perm_trans (l' := [b; d; a; c])); [apply perm_swap|]. apply (perm_trans (l' := [b; a; d; c])); [apply perm_skip, perm_swap|]. apply (perm_trans (l' := [a; b; d; c])); [apply perm_swap|]. apply perm_skip, perm_skip, perm_swap. }
  destruct (merge_reduce _ _ _ cs2 D2') as (cs' & R3 & D3); auto.
  { split; [apply full_sett; auto|]. split; [auto|apply hdb_same]. }
  { split; [apply full_setb; auto|]. split; [apply hdb_same|auto]. }
  { intros o [<-|[<-|[]]]; [split; [apply full_setb; auto|split; [apply hdb_same|auto]]|split; [apply full_sett; auto|split; [auto|apply hdb_same]]]. }
  exists cs'. split; auto. unfold chain_event. cbn [se_pt se_ty se_links fold_res]. rewrite R1. cbn [bind]. rewrite R2. cbn [bind]. exact R3.
Qed.
End Merge.
