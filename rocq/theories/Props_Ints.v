(** Properties of [Intersections] on exact scalars (C29, C51), for every input
    and every way of breaking ties. *)
Require Import List String Bool Arith Lia.
From Verif Require Import Base Scalar M_Events M_Geo M_LineOrPoint M_Slab M_Active M_Sweep M_Crossings S_Geo S_Sweep S_Ints Props_Sweep.
From Verif Require P_LineInt P_Ints P_IntsSpec.
Import ListNotations.
Local Open Scope nat_scope.

Module Impl2.
Import Impl P_LineInt P_Ints P_IntsSpec.
Section G.
Context {C : Type}.
Variables (line_of : C -> line) (tie : nat -> nat).

Lemma yl_of_calls : forall {ar : arith} B ys it, (forall fuel k, B < fuel ->
    calls line_of tie fuel k it = Ok (firstn k (map (fun y => (Some (fst y), snd y)) ys) ++ repeat (None, []) (k - List.length ys))) ->
  yl line_of tie B it ys.
Proof.
  intros ar B ys. induction ys as [|[p o] ys IH]; intros it H.
  - pose proof (H (S B) 1 ltac:(lia)) as E. cbn in E. destruct (ci_next line_of tie (S B) it) as [[it' r]| |] eqn:En; try discriminate.
    injection E as -> Eo. apply (yl_nil line_of tie B it it'); [|exact Eo].
    intros fuel L. rewrite (next_stable line_of tie (S B)); [exact En|rewrite En; discriminate|lia].
  - pose proof (H (S B) 1 ltac:(lia)) as E. cbn in E. destruct (ci_next line_of tie (S B) it) as [[it' r]| |] eqn:En; try discriminate.
    injection E as -> Eo. unfold ci_intersections in Eo. rewrite <- Eo.
    assert (N : forall fuel, B < fuel -> ci_next line_of tie fuel it = Ok (it', Some p))
      by (intros fuel L; rewrite (next_stable line_of tie (S B)); [exact En|rewrite En; discriminate|lia]).
    apply (yl_cons line_of tie B it it' p ys N). apply IH. intros fuel k L. specialize (H fuel (S k) L). cbn [calls] in H. rewrite (N fuel L) in H.
    cbn [bind] in H. destruct (calls line_of tie fuel k it') as [l| |]; try discriminate. cbn in H. injection H as _ H. rewrite H. reflexivity.
Qed.
Lemma create_out : forall sw c g sw' k, create_segment line_of sw c g None = Ok (sw', k) -> sw_out sw' = sw_out sw.
Proof.
  intros sw c g sw' k E. unfold create_segment in E. destruct (segment_new _ _ _ _) as [[sl s]| |]; try discriminate. cbn in E. injection E as <- _. reflexivity.
Qed.
Lemma from_iter_out : forall input it, ci_from_iter line_of input = Ok it -> sw_out it = [].
Proof.
  unfold ci_from_iter, sweep_new. intros input.
  assert (H : forall (sw : sweep C) it, fold_res (fun sw c => let* (sw', _) := create_segment line_of sw c None None in Ok sw') sw input = Ok it -> sw_out it = sw_out sw).
  { induction input as [|c input IH]; intros sw it E; cbn [fold_res] in E; [congruence|].
    destruct (create_segment line_of sw c None None) as [[sw' k]| |] eqn:Ec; try discriminate. cbn [bind] in E. rewrite (IH _ _ E). eapply create_out; eauto. }
  intros it E. rewrite (H _ _ E). reflexivity.
Qed.

(** More fuel changes nothing but running out of fuel. *)
Lemma advance_stable : forall f f1 it, in_advance line_of tie f f1 it <> NoFuel -> forall f' f1', f <= f' -> f1 <= f1' ->
  in_advance line_of tie f' f1' it = in_advance line_of tie f f1 it.
Proof.
  induction f as [|f IH]; intros f1 it N f' f1' L L1; [exfalso; apply N; reflexivity|]. destruct f' as [|f']; [lia|]. cbn [in_advance] in *.
  rewrite (next_stable line_of tie f1); auto; [|intros K; rewrite K in N; apply N; reflexivity].
  destruct (ci_next line_of tie f1 it) as [[it' [p|]]| |]; cbn [bind] in *; try reflexivity.
  destruct (1 <? _); [reflexivity|]. apply IH; auto; lia.
Qed.
Lemma step_stable : forall f s, in_step line_of tie f s <> NoFuel -> forall f', f <= f' -> in_step line_of tie f' s = in_step line_of tie f s.
Proof.
  intros f s N f' L. unfold in_step in *. destruct (1 + in_jdx s <? _); [reflexivity|]. destruct (_ <=? _); [|reflexivity].
  rewrite (advance_stable f f); auto. intros K. rewrite K in N. apply N. reflexivity.
Qed.
Lemma in_next_stable : forall f s, in_next line_of tie f s <> NoFuel -> forall f', f <= f' -> in_next line_of tie f' s = in_next line_of tie f s.
Proof.
  induction f as [|f IH]; intros s N f' L; [exfalso; apply N; reflexivity|]. destruct f' as [|f']; [lia|]. cbn [in_next] in *.
  rewrite (step_stable (S f)); auto; [|intros K; rewrite K in N; apply N; reflexivity].
  destruct (in_step line_of tie (S f) s) as [[s1 [|]]| |]; cbn [bind] in *; try reflexivity.
  destruct (in_intersection line_of s1) as [[r|]| |]; cbn [bind] in *; try reflexivity. apply IH; auto; lia.
Qed.
Lemma in_drain_stable : forall n f s, in_drain line_of tie n f s <> NoFuel -> forall n' f', n <= n' -> f <= f' ->
  in_drain line_of tie n' f' s = in_drain line_of tie n f s.
Proof.
  induction n as [|n IH]; intros f s N n' f' L L1; [exfalso; apply N; reflexivity|]. destruct n' as [|n']; [lia|]. cbn [in_drain] in *.
  rewrite (in_next_stable f); auto; [|intros K; rewrite K in N; apply N; reflexivity].
  destruct (in_next line_of tie f s) as [[s1 [r|]]| |]; cbn [bind] in *; try reflexivity.
  rewrite (IH f s1) by (auto; try lia; intros K; rewrite K in N; apply N; reflexivity). reflexivity.
Qed.
Lemma collect_stable : forall f input, in_collect line_of tie f input <> NoFuel -> forall f', f <= f' ->
  in_collect line_of tie f' input = in_collect line_of tie f input.
Proof.
  intros f input N f' L. unfold in_collect in *. destruct (in_from_iter line_of input) as [s| |]; cbn [bind] in *; try reflexivity.
  apply in_drain_stable; auto.
Qed.

(** The reports along [traced]. *)
Lemma Forall2_app' : forall {X Y} (R : X -> Y -> Prop) a b a' b', Forall2 R a b -> Forall2 R a' b' -> Forall2 R (a ++ a') (b ++ b').
Proof. intros. apply Forall2_app; auto. Qed.
Lemma F2_len : forall {X Y} (R : X -> Y -> Prop) a b, Forall2 R a b -> List.length a = List.length b.
Proof. intros X Y R a b H. induction H; cbn; auto. Qed.
Lemma same_flag : forall input o on, Forall2 (same_crossing input) o on -> forall k l, ovl_flag on k l = @ovl_flag C o k l.
Proof.
  intros input o on S k l. unfold ovl_flag.
  assert (H : forall o on, Forall2 (same_crossing input) o on -> forall k, Forall2 (same_crossing input) (skipn k o) (skipn k on)).
  { clear. intros o on S. induction S; intros [|k]; cbn [skipn]; try constructor; auto. }
  specialize (H _ _ S k). revert H. generalize (skipn k o) (skipn k on). generalize (l - k). clear.
  induction n as [|n IH]; intros a b H; [reflexivity|]. destruct H as [|x y a b (_ & _ & _ & E & _) H]; [reflexivity|].
  cbn [firstn forallb]. rewrite E. f_equal. apply IH. exact H.
Qed.
Lemma same_nth : forall input o on, Forall2 (same_crossing input) o on -> forall k,
  match nth_error o k, nth_error on k with Some x, Some y => @same_crossing C input x y | None, None => True | _, _ => False end.
Proof. intros input o on S. induction S; intros [|k]; cbn [nth_error]; auto. apply IHS. Qed.
Lemma same_pair : forall input ln o on kl, (forall i c, nth_error input i = Some c -> ln i = line_of c) ->
  Forall2 (same_crossing input) o on -> Forall2 (same_report input) (pair_report line_of o kl) (pair_report ln on kl).
Proof.
  intros input ln o on [k l] Hl S. unfold pair_report. cbn [fst snd]. rewrite (same_flag input o on S).
  pose proof (same_nth _ _ _ S k) as Sk. pose proof (same_nth _ _ _ S l) as Sl.
  destruct (nth_error o k) as [x|], (nth_error on k) as [xn|]; try contradiction; [|constructor].
  destruct (nth_error o l) as [y|], (nth_error on l) as [yn|]; try contradiction; [|constructor].
  destruct Sk as (A1 & A2 & A3 & A4 & A5). destruct Sl as (B1 & B2 & B3 & B4 & B5). unfold worth. rewrite A3, A5, B3, B5.
  destruct (if ovl_flag o k l then _ else _); [|constructor]. rewrite (Hl _ _ A1), (Hl _ _ B1).
  destruct (line_intersection _ _) as [i|]; [|constructor]. constructor; [|constructor]. split; [exact A1|]. split; [exact B1|]. reflexivity.
Qed.
Lemma same_reports : forall input ln ys ysn, (forall i c, nth_error input i = Some c -> ln i = line_of c) ->
  traced input ys ysn -> Forall2 (same_report input) (reports line_of ys) (reports ln ysn).
Proof.
  intros input ln ys ysn Hl T. induction T as [|[p o] [pn on] ys ysn [E S] T IH]; [constructor|]. unfold reports in *. cbn [flat_map].
  apply Forall2_app'; [|exact IH]. cbn [fst snd] in *. unfold slice_reports, all_pairs. rewrite (F2_len _ _ _ S).
  generalize (rows (List.length on) 0). intros kls. induction kls as [|kl kls IHk]; [constructor|]. cbn [flat_map]. apply Forall2_app'; [|exact IHk].
  apply same_pair; auto.
Qed.
End G.

Lemma run_ints : forall {C} (line_of : C -> line) tie input, exists ys ln ysn N it, run_facts line_of tie input it ys ln ysn /\
  forall fuel, N < fuel -> in_collect line_of tie fuel input = Ok (reports line_of ys).
Proof.
  intros C line_of tie input. destruct (run_all line_of tie input) as (it & ys & ln & ysn & R).
  exists ys, ln, ysn, (size ys + List.length ys + events_bound (List.length input)), it. split; [exact R|].
  pose proof (rf_collect _ _ _ _ _ _ _ R (S (events_bound (List.length input))) ltac:(lia)) as E.
  apply (collect_ok line_of tie (events_bound (List.length input)) input it ys (rf_new _ _ _ _ _ _ _ R)).
  - eapply from_iter_out. apply R.
  - apply yl_of_calls. apply (rf_calls _ _ _ _ _ _ _ R).
  - apply Forall_forall. intros [p o] I. split; cbn [fst snd].
    + intros x J. apply (C19_crossings_sound line_of tie _ input ys E p o x I J).
    + split; [|reflexivity]. intros k x Ek Eo. apply (C27_overlap_next line_of tie _ input ys E p o k x I Ek Eo).
Qed.
Lemma ints_of : forall {C} (line_of : C -> line) tie fuel input r, in_collect line_of tie fuel input = Ok r ->
  exists ys ln ysn it, run_facts line_of tie input it ys ln ysn /\ r = reports line_of ys.
Proof.
  intros C line_of tie fuel input r E. destruct (run_ints line_of tie input) as (ys & ln & ysn & N & it & R & H). exists ys, ln, ysn, it. split; [exact R|].
  specialize (H (S N + fuel) ltac:(lia)). rewrite (collect_stable line_of tie fuel) in H by (try lia; rewrite E; discriminate). congruence.
Qed.
End Impl2.
Import Impl2.

(** ** C29 *)
Theorem C29_intersections_terminate : forall {C} (line_of : C -> line) (tie : nat -> nat) (input : list C),
  (exists r N, forall fuel, N < fuel -> in_collect line_of tie fuel input = Ok r) /\
  (forall fuel m, in_collect line_of tie fuel input <> Panic m).
Proof.
  intros C line_of tie input. destruct (run_ints line_of tie input) as (ys & ln & ysn & N & it & R & H). split; [eauto|].
  intros fuel m E. specialize (H (S N + fuel) ltac:(lia)). rewrite (collect_stable line_of tie fuel) in H by (try lia; rewrite E; discriminate). congruence.
Qed.
Theorem C29_intersections_sound : forall {C} (line_of : C -> line) tie fuel (input : list C) r,
  in_collect line_of tie fuel input = Ok r ->
  exists rn, Forall2 (same_report input) r rn /\
  forall i j x, In (i, j, x) rn -> i <> j /\
    exists c c', nth_error input i = Some c /\ nth_error input j = Some c' /\ exact_intersection (line_of c) (line_of c') x.
Proof.
  intros C line_of tie fuel input r E. destruct (ints_of line_of tie fuel input r E) as (ys & ln & ysn & it & R & ->).
  destruct R as [rf_ln rf_ls rf_new rf_calls rf_collect rf_unique rf_length rf_traced rf_good rf_final].
  exists (P_Ints.reports ln ysn). split; [apply same_reports; auto|]. intros i j x I.
  destruct (P_IntsSpec.reports_sound ln (List.length input) ysn rf_good rf_final i j x I) as (Li & Lj & Nij & X). split; [exact Nij|].
  apply nth_error_Some in Li, Lj. destruct (nth_error input i) as [c|] eqn:Ei; [|congruence]. destruct (nth_error input j) as [c'|] eqn:Ej; [|congruence].
  exists c, c'. split; [auto|]. split; [auto|]. rewrite <- (rf_ln _ _ Ei), <- (rf_ln _ _ Ej). exact X.
Qed.

(** ** C51 *)
Theorem C51_proper_crossings_once : forall {C} (line_of : C -> line) tie fuel (input : list C) r,
  in_collect line_of tie fuel input = Ok r ->
  exists rn, Forall2 (same_report input) r rn /\
  forall i j c c' p, nth_error input i = Some c -> nth_error input j = Some c' -> i <> j ->
    only_common (line_of c) (line_of c') p -> not_left_end (line_of c) p -> not_left_end (line_of c') p ->
    exists t, filter (is_pair i j) rn = [t] /\ (forall r', on_line (line_of c) r' /\ on_line (line_of c') r' <->
      match snd t with SinglePoint q _ => r' = q | CollinearSeg s => on_line s r' end).
Proof.
  intros C line_of tie fuel input r E. destruct (ints_of line_of tie fuel input r E) as (ys & ln & ysn & it & R & ->).
  destruct R as [rf_ln rf_ls rf_new rf_calls rf_collect rf_unique rf_length rf_traced rf_good rf_final].
  exists (P_Ints.reports ln ysn). split; [apply same_reports; auto|]. intros i j c c' p Ei Ej Nij U Ni Nj.
  assert (Li : i < List.length input) by (apply nth_error_Some; congruence). assert (Lj : j < List.length input) by (apply nth_error_Some; congruence).
  rewrite <- (rf_ln _ _ Ei), <- (rf_ln _ _ Ej) in *.
  destruct (P_IntsSpec.reports_once ln (List.length input) ysn rf_good rf_final i j p Li Lj Nij U Ni Nj) as (t & Ht). exists t. split; [exact Ht|].
  assert (It : In t (filter (is_pair i j) (P_Ints.reports ln ysn))) by (rewrite Ht; left; auto). apply filter_In in It as [It Pt].
  destruct t as [[a b] x]. cbn [snd]. pose proof (P_IntsSpec.reports_sound ln (List.length input) ysn rf_good rf_final a b x It) as (_ & _ & _ & X).
  unfold is_pair in Pt. cbn [fst snd] in Pt. rewrite orb_true_iff, !andb_true_iff, !Nat.eqb_eq in Pt. intros r'.
  destruct Pt as [[-> ->]|[-> ->]]; destruct x; cbn in X; rewrite <- (X r'); tauto.
Qed.

Print Assumptions C29_intersections_terminate.
Print Assumptions C29_intersections_sound.
Print Assumptions C51_proper_crossings_once.
