(** How many pieces and diagonals the monotone decomposition makes. *)
Require Import List String Bool Arith Lia Permutation Sorted.
From Verif Require Import Base Scalar M_Events M_Geo M_LineOrPoint M_Slab M_Active M_MonoPoly M_Rings M_Op M_MonoSweep M_Chains.
From Verif Require Import S_Geo P_Geo P_LineOrPoint P_Tilt P_Chain P_Bundle P_Order P_Inv P_Slab P_BTree.
From Verif Require Import P_OpLab P_OpStep P_OpPlane P_MonoGeo P_MonoSweep P_MonoStep P_ChainStep P_EdgeSweep P_ChainLen.
Import Datatypes.
Import ListNotations.
Local Open Scope nat_scope.

Definition late_in (p : pt) (L : list pt) : nat := length (filter (fun v => pltb p v) L).
Lemma late_le : forall p p' L, lex_lt p p' -> late_in p' L <= late_in p L.
Proof.
  intros p p' L Lt. unfold late_in. induction L as [|v L IH]; [auto|]. cbn [filter]. destruct (pltb_spec p' v) as [A|A], (pltb_spec p v) as [B|B]; cbn [length]; try lia. exfalso. apply B. lord.
Qed.
Lemma late_in_lt : forall p p' L, lex_lt p p' -> In p' L -> S (late_in p' L) <= late_in p L.
Proof.
  intros p p' L Lt. induction L as [|v L IH]; intros I; [destruct I|]. pose proof (late_le p p' L Lt) as Le. unfold late_in in *. cbn [filter]. destruct I as [->|I].
  - assert (X : pltb p p' = true) by (apply pltb_iff; auto). assert (Y : pltb p' p' = false) by (apply not_true_iff_false; intros Z; apply pltb_iff in Z; lord). rewrite X, Y. cbn [length]. lia.
  - specialize (IH I). destruct (pltb_spec p' v) as [A|A], (pltb_spec p v) as [B|B]; cbn [length]; try lia. exfalso. apply B. lord.
Qed.
(** Parts of the interior that still owe a merge. *)
Definition owed (gs : list sgap) : nat := length (filter sg_m gs).
Lemma owed_app : forall a b, owed (a ++ b) = owed a + owed b.
Proof. intros. unfold owed. rewrite filter_app, app_length. reflexivity. Qed.
Lemma owed_cons : forall b t h m gs, owed (mkSgap b t h m :: gs) = (if m then 1 else 0) + owed gs.
Proof. intros b t h [|] gs; reflexivity. Qed.

Section Count.
Context {ln : nat -> line} {n : nat} {e : Qc} {V V' : list pt} {top : nat -> bool}.
Context (G : mono_geo ln n e V V' top).
Variable pick : list nat -> nat -> nat -> nat.
Notation ea := (ea ln).
Notation ez := (ez ln).
Notation sinv := (@sinv ln n e top).
Notation sstep := (@sstep ln n e).
Variables L R : list pt.
Hypothesis HL : forall v c1 c2, In v V -> c1 < n -> c2 < n -> c1 <> c2 -> ea c1 = v -> ea c2 = v -> In v L.
Hypothesis HR : forall v c1 c2, In v V -> c1 < n -> c2 < n -> c1 <> c2 -> ez c1 = v -> ez c2 = v -> In v R.
Definition coming (p : pt) : nat := length (filter (fun c => pltb p (ea c)) (seq 0 n)).
Lemma coming_le : forall p p' l, lex_lt p p' -> NoDup l -> (forall c, In c l -> c < n /\ ea c = p') -> length l + coming p' <= coming p.
Proof.
  intros p p' l Lt N H. unfold coming. rewrite <- app_length. apply NoDup_incl_length.
  - apply P_ChainStep.nodup_app. split; auto. split; [apply NoDup_filter, seq_NoDup|]. intros c I J. apply filter_In in J as [_ J]. apply pltb_iff in J. destruct (H c I) as [_ <-]. lord.
  - intros c I. apply in_app_iff in I as [I|I]; apply filter_In.
    + destruct (H c I) as [I1 I2]. split; [apply in_seq; lia|]. apply pltb_iff. rewrite I2. auto.
    + apply filter_In in I as [I1 I2]. split; auto. apply pltb_iff in I2. apply pltb_iff. lord.
Qed.
Lemma mlinks_more : forall m h p lim, list_sum (map more (mlinks m h p lim)) = 0.
Proof. intros [|] h p lim; reflexivity. Qed.
Lemma mlinks_extra : forall ty m h p lim, ty <> VSplit -> list_sum (map (extra ty) (mlinks m h p lim)) = if m then 2 else 0.
Proof. intros ty [|] h p lim N; destruct ty; try reflexivity. congruence. Qed.
Lemma step_count : forall p p' gs ty links gs', In p' V -> lex_lt p p' -> sstep p' gs ty links gs' -> NoDup (flat gs) -> NoDup (flat gs') ->
  list_sum (map more links) + 2 * late_in p' L <= 2 * late_in p L /\
  list_sum (map (extra ty) links) + 2 * owed gs' + coming p' + 2 * late_in p' L + 2 * late_in p' R
    <= 2 * owed gs + list_sum (map more links) + coming p + 2 * late_in p L + 2 * late_in p R.
Proof.
  intros p p' gs ty links gs' Vp Lt St N N'. pose proof (late_le p p' L Lt) as LL. pose proof (late_le p p' R Lt) as LR. pose proof (fun l => coming_le p p' l Lt) as Co.
  assert (Fl : forall b t X Y h m, NoDup (flat (X ++ mkSgap b t h m :: Y)) -> b <> t).
  { intros b t X Y h m Z. unfold flat in Z. rewrite flat_map_app in Z. apply nodup_app in Z as (_ & Z & _). cbn [flat_map sg_b sg_t app] in Z. inversion Z as [|? ? Z1 _]; subst. intros ->. apply Z1. left; auto. }
  destruct St as [X Y b t En Sa|X Y b t h m En Sa|X Y b t t' h m En Sa _|X Y b b' t h m lim En Sa _|X Y b t b' t' h m En Sa _ _|X Y b1 t1 h1 m1 b2 t2 h2 m2 lim En Sa _ _];
    rewrite ?map_app, ?list_sum_app, ?mlinks_more, ?mlinks_extra, ?owed_app, ?owed_cons by discriminate; cbn [map list_sum fold_right more extra].
  - assert (Z : b <> t) by (apply (Fl b t X Y p' false); auto). pose proof (Co [b; t] (nodup_starts _ _ Z) (fun c I => proj1 (Sa c) I)) as C. cbn [length] in C.
    assert (I : In p' L) by (destruct (proj1 (Sa b) (or_introl eq_refl)), (proj1 (Sa t) (or_intror (or_introl eq_refl))); apply (HL p' b t); auto). pose proof (late_in_lt p p' L Lt I). lia.
  - pose proof (Co [] (NoDup_nil _) (fun c I => False_ind _ I)) as C. cbn [length] in C. destruct m; lia.
  - pose proof (Co [t'] (NoDup_cons _ (@in_nil _ _) (NoDup_nil _)) (fun c I => proj1 (Sa c) I)) as C. cbn [length] in C. destruct m; lia.
  - pose proof (Co [b'] (NoDup_cons _ (@in_nil _ _) (NoDup_nil _)) (fun c I => proj1 (Sa c) I)) as C. cbn [length] in C. destruct m; lia.
  - assert (Z : t' <> b').
    { unfold flat in N'. rewrite flat_map_app in N'. apply nodup_app in N' as (_ & Z & _). cbn [flat_map sg_b sg_t app] in Z. inversion Z as [|? ? _ Z1]; subst. inversion Z1 as [|? ? Z2 _]; subst. intros ->. apply Z2. left; auto. }
    pose proof (Co [t'; b'] (nodup_starts _ _ Z) (fun c I => proj1 (Sa c) I)) as C. cbn [length] in C.
    assert (I : In p' L) by (destruct (proj1 (Sa t') (or_introl eq_refl)), (proj1 (Sa b') (or_intror (or_introl eq_refl))); apply (HL p' t' b'); auto). pose proof (late_in_lt p p' L Lt I). destruct m; cbn [more extra]; lia.
  - assert (Z : t1 <> b2).
    { unfold flat in N. rewrite flat_map_app in N. apply nodup_app in N as (_ & Z & _). cbn [flat_map sg_b sg_t app] in Z. inversion Z as [|? ? _ Z1]; subst. inversion Z1 as [|? ? Z2 _]; subst. intros ->. apply Z2. left; auto. }
    pose proof (Co [] (NoDup_nil _) (fun c I => False_ind _ I)) as C. cbn [length] in C.
    assert (I : In p' R) by (destruct (proj1 (En t1) (or_introl eq_refl)), (proj1 (En b2) (or_intror (or_introl eq_refl))); apply (HR p' t1 b2); auto). pose proof (late_in_lt p p' R Lt I). destruct m1, m2; lia.
Qed.
Theorem loop_count : forall k hf p s gs cs cs', In p V' -> sinv hf p s gs -> chains_loop pick k s cs = Ok cs' ->
  length cs' <= length cs + 2 * late_in p L /\
  tot cs' + length cs <= tot cs + length cs' + 2 * owed gs + coming p + 2 * late_in p L + 2 * late_in p R.
Proof.
  induction k as [|k IH]; intros hf p s gs cs cs' Vp Si E; cbn [chains_loop] in E; [discriminate|]. destruct (ms_events s) as [|e0 rest] eqn:Ev.
  - destruct (process_end (ln := ln) (n := n) (e := e) (V' := V') (top := top) pick hf p s gs) as (Q & Eg & _); auto. rewrite Q in E. cbn [bind] in E. injection E as <-. lia.
  - destruct (process_ok G pick hf p s gs) as (hf' & p' & s' & gs' & ty & links & Vp' & Lp & Nx & Q & St & S' & Ln); auto; [rewrite Ev; discriminate|]. rewrite Q in E. cbn [bind] in E. bnd E. apply event_len in E0 as [L1 L2]. cbn [se_links se_ty] in *.
    destruct (step_count p p' gs ty links gs' Vp' Lp St (so_nodup _ _ (si_sorted _ _ _ _ Si)) (so_nodup _ _ (si_sorted _ _ _ _ S'))) as [C1 C2].
    apply (IH hf' p' s' gs' x cs') in E as [I1 I2]; auto; [lia|apply (mg_incl _ _ _ _ _ _ G); auto].
Qed.
End Count.
