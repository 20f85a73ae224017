(** Monotone decomposition: the whole run on a valid arrangement. *)
Require Import List String Bool Arith Lia Permutation Sorted.
From Verif Require Import Base Scalar M_Events M_Geo M_LineOrPoint M_Slab M_Active M_MonoPoly M_Rings M_Op M_MonoSweep M_Chains.
From Verif Require Import S_Geo P_Geo P_LineOrPoint P_Tilt P_Chain P_Bundle P_Order P_Inv P_Slab P_BTree.
From Verif Require Import P_OpLab P_OpStep P_OpPlane P_MonoGeo P_MonoSweep P_MonoStep P_ChainDesc P_ChainEvent P_MonoChains P_ChainStep P_ChainSteps.
Import Datatypes.
Import ListNotations.
Local Open Scope nat_scope.

(** * From the finished chains to the pieces *)
Definition piece (o : opair) : mono_poly := mkMono (rev (ot o)) (rev (ob o)).
Lemma chain_pairs_ok : forall cs i, (forall c, In c cs -> c_done c = true) ->
  exists L, chain_pairs i cs = Ok L /\ NoDup L /\ (forall a b, In (a, b) L <-> i <= a /\ exists c, nth_error cs (a - i) = Some c /\ c_int c = Cw /\ b = c_other c).
Proof.
  induction cs as [|c cs IH]; intros i A.
  - exists []. split; auto. split; [constructor|]. intros a b. split; [intros []|]. intros (_ & c & E & _). destruct (a - i); discriminate.
  - destruct (IH (S i)) as (L & E & N & I); [intros; apply A; right; auto|]. cbn [chain_pairs]. rewrite (A c (or_introl eq_refl)). cbn [check bind]. rewrite E. cbn [bind]. eexists. split; [reflexivity|]. split.
    + destruct (c_int c); auto. constructor; auto. intros J. apply I in J as [J _]. lia.
    + intros a b. assert (Q : In (a, b) L <-> i <= a /\ a <> i /\ exists c0, nth_error (c :: cs) (a - i) = Some c0 /\ c_int c0 = Cw /\ b = c_other c0).
      { rewrite I. split.
        - intros (L1 & c0 & X). split; [lia|]. split; [lia|]. exists c0. replace (a - i) with (S (a - S i)) by lia. exact X.
        - intros (L1 & L2 & c0 & X). split; [lia|]. exists c0. replace (a - i) with (S (a - S i)) in X by lia. exact X. }
      destruct (c_int c) eqn:Ci.
      * cbn [In]. rewrite Q. split.
        -- intros [X|(X1 & X2 & X3)]; [|auto]. injection X as <- <-. split; [lia|]. exists c. rewrite Nat.sub_diag. auto.
        -- intros (X1 & X2). destruct (Nat.eq_dec a i) as [->|Na]; [|auto]. left. destruct X2 as (c0 & X2 & X3 & X4). rewrite Nat.sub_diag in X2. injection X2 as <-. congruence.
      * rewrite Q. split; [tauto|]. intros (X1 & X2). split; auto. split; auto. intros ->. destruct X2 as (c0 & X2 & X3 & _). rewrite Nat.sub_diag in X2. injection X2 as <-. congruence.
Qed.
Lemma desc_pairs : forall cs D, desc cs [] D -> exists D', Permutation D D' /\ chain_pairs 0 cs = Ok (map (fun o => (ti o, bi o)) D').
Proof.
  intros cs D De. destruct (chain_pairs_ok cs 0) as (L & E & N & I).
  { apply (desc_all (fun c => c_done c = true) cs [] D De); auto. }
  assert (P : Permutation L (map (fun o => (ti o, bi o)) D)).
  { apply NoDup_Permutation; auto.
    - pose proof (desc_nodup _ _ _ De) as Nd. cbn [app] in Nd. clear - Nd. induction D as [|o D IH]; [constructor|]. cbn [ids flat_map app] in Nd. inversion Nd as [|? ? N1 N2]; subst. inversion N2 as [|? ? N3 N4]; subst. cbn [map]. constructor; auto.
      intros J. apply in_map_iff in J as (o' & Q & J). injection Q as Q _. apply N3. fold (ids D). apply in_ids. exists o'. auto.
    - intros [a b]. rewrite I, in_map_iff. split.
      + intros (_ & c & X & Ci & Eb). rewrite Nat.sub_0_r in X. destruct (desc_nth _ _ _ _ _ De X) as ([|] & o & Io & [[-> ->]|[-> ->]]); try discriminate Ci; [|destruct Io]. exists o. cbn in Eb. subst b. auto.
      + intros (o & Q & J). injection Q as <- <-. split; [lia|]. exists (tch true o). rewrite Nat.sub_0_r. split; [apply (de_d _ _ _ De o J)|auto]. }
  apply Permutation_map_inv in P as (D' & -> & P'). exists D'. auto.
Qed.
Lemma first_rev : forall (l : list pt) r, first (rev (l ++ [r])) = Some r.
Proof. intros. rewrite rev_app_distr. reflexivity. Qed.
Lemma last_rev : forall (l : list pt) q, last_opt (rev (q :: l)) = Some q.
Proof. intros. cbn [rev]. unfold last_opt. rewrite app_length. cbn [List.length]. rewrite nth_error_app2 by lia. replace (length (rev l) + 1 - 1 - length (rev l)) with 0 by lia. reflexivity. Qed.
Lemma windows_snoc : forall l a b, windows_increase (l ++ [a]) = true -> pltb a b = true -> windows_increase (l ++ [a; b]) = true.
Proof.
  induction l as [|x l IH]; intros a b W L; [cbn; rewrite L; reflexivity|]. destruct l as [|y l]; cbn [app windows_increase] in *.
  - rewrite andb_true_r in W. rewrite W, L. reflexivity.
  - apply andb_true_iff in W as [W1 W2]. rewrite W1. apply IH; auto.
Qed.
Lemma windows_rev : forall l, dec l -> windows_increase (rev l) = true.
Proof.
  induction l as [|z l IH]; intros S; auto. pose proof (IH (dec_tail _ _ S)) as W. destruct l as [|a l]; auto. cbn [rev] in *. rewrite <- app_assoc. apply windows_snoc; auto.
  inversion S as [|? ? _ F]; subst. inversion F; subst. apply pltb_iff. auto.
Qed.

Section Run.
Context {ln : nat -> line} {n : nat} {e : Qc} {V V' : list pt} {top : nat -> bool}.
Context (G : mono_geo ln n e V V' top).
Variable pick : list nat -> nat -> nat -> nat.
Notation ea := (ea ln).
Notation ez := (ez ln).
Notation pw := (@pw e V V').
Notation done := (@done e V V').
Notation cinv := (@cinv ln n e V V' top).
Notation tag := (@tag ln top).
Notation sinv := (@sinv ln n e top).

Lemma new_ok : forall o, done o -> mp_new (rev (ot o)) (rev (ob o)) = Ok (piece o).
Proof.
  intros o [[Pb Pt PV (r & k1 & k2 & R1 & R2) _] (q & l1 & l2 & E1 & E2 & N)]. unfold mp_new.
  rewrite R1, R2, !first_rev, <- R1, <- R2. unfold opt_pt_eqb at 1. rewrite peqb_same. cbn [check bind].
  rewrite E1, E2, !last_rev, <- E1, <- E2. unfold opt_pt_eqb at 1. rewrite peqb_same. cbn [check bind].
  assert (Q : peqb r q = false).
  { apply peqb_false. intros ->. rewrite R1 in E1. destruct k1 as [|x k1]; [cbn in E1; injection E1 as E1; congruence|]. cbn in E1. injection E1 as -> E1. rewrite R1 in Pb. inversion Pb as [|? ? _ F]; subst. rewrite Forall_forall in F. assert (Z : lex_lt q q) by (apply F; apply in_or_app; right; left; auto). lord. }
  unfold opt_pt_eqb. rewrite Q. cbn [negb check bind]. rewrite !windows_rev by auto. reflexivity.
Qed.
Lemma take_ok : forall D lines, (forall o, In o D -> done o) -> NoDup (ids D) -> (forall o, In o D -> nth_error lines (ti o) = Some (rev (ot o)) /\ nth_error lines (bi o) = Some (rev (ob o))) ->
  take_pairs (map (fun o => (ti o, bi o)) D) lines = Ok (map piece D).
Proof.
  induction D as [|o D IH]; intros lines W N L; auto. cbn [map take_pairs]. destruct (L o (or_introl eq_refl)) as [L1 L2]. cbn [ids flat_map app] in N. fold (ids D) in N. inversion N as [|? ? N1 N2]; subst. inversion N2 as [|? ? N3 N4]; subst. cbn [In] in N1.
  unfold take_line. rewrite L1. cbn [expect bind]. rewrite list_set_other by (intros Q; apply N1; auto). rewrite L2. cbn [expect bind]. rewrite (new_ok o) by (apply W; left; auto). cbn [bind].
  rewrite IH; auto.
  - intros o' I. apply W. right; auto.
  - intros o' I. assert (J1 : In (ti o') (ids D)) by (apply in_ids; exists o'; auto). assert (J2 : In (bi o') (ids D)) by (apply in_ids; exists o'; auto).
    rewrite !list_set_other; [apply L; right; auto| | | |]; intros Q; rewrite <- Q in *; tauto.
Qed.
Lemma chains_out_ok : forall cs D, desc cs [] D -> (forall o, In o D -> done o) -> exists D', Permutation D D' /\ chains_out cs = Ok (map piece D').
Proof.
  intros cs D De W. destruct (desc_pairs cs D De) as (D' & P & E). exists D'. split; auto. unfold chains_out. rewrite E. cbn [bind].
  assert (Ln : length (map (fun o => (ti o, bi o)) D') * 2 =? length (map c_line_string cs) = true).
  { apply Nat.eqb_eq. rewrite !map_length. rewrite <- (Permutation_length P). pose proof (Permutation_length (de_ids _ _ _ De)) as Q. rewrite seq_length in Q. rewrite <- Q. cbn [app]. clear. induction D as [|o D IH]; auto. cbn [ids flat_map app length] in *. fold (ids D). lia. }
  rewrite Ln. cbn [check bind]. assert (I : forall o, In o D' -> In o D) by (intros o; apply Permutation_in; apply Permutation_sym; auto). apply take_ok.
  - intros o J. apply W. auto.
  - apply (Permutation_NoDup (ids_perm _ _ P)). apply (desc_nodup _ _ _ De).
  - intros o J. destruct (de_d _ _ _ De o (I o J)) as [X Y]. split; [apply (map_nth_error c_line_string _ _ Y)|apply (map_nth_error c_line_string _ _ X)].
Qed.

(** * The loop *)
Theorem loop_ok : forall k hf p s gs gbs cs D, In p V' -> sinv hf p s gs -> gs = map fst gbs -> cinv p gbs cs D -> length (ms_events s) < k ->
  exists cs' D', chains_loop pick k s cs = Ok cs' /\ desc cs' [] D' /\ (forall o, In o D' -> done o) /\
    exists d, Permutation (flat_map tedges D') (map tag (seq 0 n) ++ twice d).
Proof.
  induction k as [|k IH]; intros hf p s gs gbs cs D Vp S Eg C Lk; [lia|]. cbn [chains_loop]. destruct (ms_events s) as [|e0 rest] eqn:Ev.
  - destruct (process_end (ln := ln) (n := n) (e := e) (V' := V') (top := top) pick hf p s gs) as (R & Eg' & Le); auto. rewrite R. cbn [bind]. exists cs, D. split; auto. subst gs. destruct gbs; [|discriminate]. destruct C as [C1 _ _ C4 (d & C5)]. split; [exact C1|]. split; [exact C4|]. exists d.
    apply (perm_trans C5). apply Permutation_app_tail. unfold started. rewrite filter_all; [apply Permutation_refl|]. intros c I. apply in_seq in I. apply pleb_iff. assert (Z : lex_le (ez c) p) by (apply Le; lia). pose proof (azlt G c ltac:(lia)). lord.
  - destruct (process_ok G pick hf p s gs) as (hf' & p' & s' & gs' & ty & links & Vp' & Lp & Nx & R & St & S' & Ln); auto; [rewrite Ev; discriminate|]. rewrite R. cbn [bind].
    destruct (chain_step G p p' Vp Vp' Lp Nx gs ty links gs' gbs cs D St Eg C (si_sorted _ _ _ _ S) (si_sorted _ _ _ _ S')) as (cs' & gbs' & D' & R' & Eg' & C'). rewrite R'. cbn [bind].
    apply (IH hf' p' s' gs' gbs' cs' D'); auto; [apply (mg_incl _ _ _ _ _ _ G); auto|]. rewrite Ev in Ln. cbn [length] in *. lia.
Qed.
Theorem run_ok : forall hf p s, In p V' -> sinv hf p s [] -> (forall v, In v V -> lex_lt p v) ->
  exists cs D, chains_loop pick (S (length (ms_events s))) s [] = Ok cs /\ chains_out cs = Ok (map piece D) /\ (forall o, In o D -> done o) /\
    exists d, Permutation (flat_map tedges D) (map tag (seq 0 n) ++ twice d).
Proof.
  intros hf p s Vp Si Bf. destruct (loop_ok (S (length (ms_events s))) hf p s [] [] [] [] Vp Si eq_refl) as (cs & D & R & De & W & d & P); auto.
  - constructor.
    + constructor; [apply Permutation_refl|intros o []|intros o []].
    + intros x [].
    + constructor.
    + intros o [].
    + exists []. cbn. unfold started. rewrite filter_none; [constructor|]. intros c I. apply in_seq in I. apply not_true_iff_false. intros Q. apply pleb_iff in Q. assert (Z : lex_lt p (ea c)) by (apply Bf; apply (aV0 G); lia). lord.
  - destruct (chains_out_ok cs D De W) as (D' & P' & R'). exists cs, D'. split; auto. split; auto. split; [intros o I; apply W; apply (Permutation_in _ (Permutation_sym P')); auto|].
    exists d. apply (perm_trans (l' := flat_map tedges D)); auto. apply Permutation_flat_map. apply Permutation_sym. auto.
Qed.
End Run.
