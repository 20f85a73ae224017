(** [Intersections] as a function of the output of [CrossingsIter]. *)
Require Import List String Bool Arith Lia.
From Verif Require Import Base Scalar M_Events M_Geo M_LineOrPoint M_Sweep M_Crossings S_Geo S_Sweep P_LineInt.
Import ListNotations.
Local Open Scope nat_scope.

Section Ints.
Context {C : Type} {ar : arith}.
Variables (line_of : C -> line) (tie : nat -> nat) (B : nat).
Notation crossing := (crossing C).
Notation report := (C * C * line_intersection_result)%type.

(** The entries from [k] up to but not including [l] all announce an overlap
    with the next. *)
Definition ovl_flag (o : list crossing) (k l : nat) : bool := forallb cr_overlap (firstn (l - k) (skipn k o)).
Definition worth (f : bool) (si sj : crossing) : bool :=
  if f then cr_left si && (cr_first si || cr_first sj)
  else (negb (cr_left si) || cr_first si) && (negb (cr_left sj) || cr_first sj).
Definition pair_report (o : list crossing) (kl : nat * nat) : list report :=
  match nth_error o (fst kl), nth_error o (snd kl) with
  | Some si, Some sj =>
      if worth (ovl_flag o (fst kl) (snd kl)) si sj then
        match line_intersection (line_of (cr_cross si)) (line_of (cr_cross sj)) with
        | Some i => [(cr_cross si, cr_cross sj, i)]
        | None => []
        end
      else []
  | _, _ => []
  end.
Definition row (n k : nat) (from : nat) : list (nat * nat) := map (fun l => (k, l)) (seq from (n - from)).
Definition rows (n from : nat) : list (nat * nat) := flat_map (fun k => row n k (S k)) (seq from (n - 1 - from)).
Definition all_pairs (o : list crossing) : list (nat * nat) := rows (List.length o) 0.
Definition slice_reports (o : list crossing) : list report := flat_map (pair_report o) (all_pairs o).
Definition reports (ys : output C) : list report := flat_map (fun y => slice_reports (snd y)) ys.

Definition chained (o : list crossing) : Prop := forall k x, nth_error o k = Some x -> cr_overlap x = true ->
  exists y, nth_error o (S k) = Some y /\ cr_line y = cr_line x /\ cr_left y = cr_left x.
Definition good_slice (y : pt * list crossing) : Prop :=
  (forall x, In x (snd y) -> on_line (line_of (cr_cross x)) (fst y)) /\ chained (snd y) /\
  (forall x x', In x (snd y) -> In x' (snd y) -> common (line_of (cr_cross x)) (line_of (cr_cross x')) = line_intersection (line_of (cr_cross x)) (line_of (cr_cross x'))).

Inductive yl : sweep C -> output C -> Prop :=
| yl_nil : forall sw sw', (forall fuel, B < fuel -> ci_next line_of tie fuel sw = Ok (sw', None)) -> sw_out sw' = [] -> yl sw []
| yl_cons : forall sw sw' p ys, (forall fuel, B < fuel -> ci_next line_of tie fuel sw = Ok (sw', Some p)) ->
    yl sw' ys -> yl sw ((p, sw_out sw') :: ys).

(** The pairs that remain in the current slice. *)
Definition rem (n k l : nat) : list (nat * nat) := row n k (S l) ++ rows n (S k).
Lemma row_cons : forall n k f, f < n -> row n k f = (k, f) :: row n k (S f).
Proof. intros n k f L. unfold row. replace (n - f) with (S (n - S f)) by lia. reflexivity. Qed.
Lemma row_nil : forall n k f, n <= f -> row n k f = [].
Proof. intros n k f L. unfold row. replace (n - f) with 0 by lia. reflexivity. Qed.
Lemma rows_cons : forall n f, S f < n -> rows n f = (f, S f) :: rem n f (S f).
Proof.
  intros n f L. unfold rows. replace (n - 1 - f) with (S (n - 1 - S f)) by lia. cbn [seq flat_map]. rewrite row_cons by lia. reflexivity.
Qed.
Lemma rows_nil : forall n f, n <= S f -> rows n f = [].
Proof. intros n f L. unfold rows. replace (n - 1 - f) with 0 by lia. reflexivity. Qed.

Lemma firstn_S : forall {X} (l : list X) k x, nth_error l k = Some x -> firstn (S k) l = firstn k l ++ [x].
Proof. intros X l. induction l as [|a l IH]; intros [|k] x E; try discriminate; [injection E as ->; reflexivity|]. cbn [firstn app]. f_equal. apply IH. exact E. Qed.
Lemma nth_skipn : forall {X} (l : list X) k m, nth_error (skipn k l) m = nth_error l (k + m).
Proof. intros X l k. revert l. induction k as [|k IH]; intros l m; [reflexivity|]. destruct l as [|a l]; [destruct m; reflexivity|]. apply IH. Qed.
Lemma flag_S : forall o k l x, k <= l -> nth_error o l = Some x -> ovl_flag o k (S l) = ovl_flag o k l && cr_overlap x.
Proof.
  intros o k l x L E. unfold ovl_flag. replace (S l - k) with (S (l - k)) by lia. rewrite (firstn_S _ _ x).
  - rewrite forallb_app. cbn [forallb]. rewrite andb_true_r. reflexivity.
  - rewrite nth_skipn. replace (k + (l - k)) with l by lia. exact E.
Qed.
Lemma flag_1 : forall o k x, nth_error o k = Some x -> ovl_flag o k (S k) = cr_overlap x.
Proof. intros o k x E. rewrite (flag_S o k k x) by auto. unfold ovl_flag. rewrite Nat.sub_diag. reflexivity. Qed.
Lemma flag_chain : forall o, chained o -> forall l k si sj, k <= l -> ovl_flag o k l = true -> nth_error o k = Some si -> nth_error o l = Some sj ->
  cr_line sj = cr_line si /\ cr_left sj = cr_left si.
Proof.
  intros o H l. induction l as [|l IH]; intros k si sj L F Ek El.
  - replace k with 0 in Ek by lia. split; congruence.
  - destruct (Nat.eq_dec k (S l)) as [->|N]; [split; congruence|].
    destruct (nth_error o l) as [x|] eqn:Ex.
    + rewrite (flag_S o k l x) in F by (auto; lia). apply andb_true_iff in F as [F1 F2].
      destruct (IH k si x ltac:(lia) F1 Ek eq_refl) as [A1 A2]. destruct (H l x Ex F2) as (y & Ey & B1 & B2). rewrite El in Ey. injection Ey as <-.
      split; congruence.
    + apply nth_error_None in Ex. assert (S l < List.length o) by (apply nth_error_Some; congruence). lia.
Qed.

(** Where the iterator stands. *)
Record at_pair (s : @intersections C) : Prop := {
  ap_k : in_idx s < in_jdx s;
  ap_l : in_jdx s < List.length (sw_out (in_inner s));
  ap_f : in_ovl s = ovl_flag (sw_out (in_inner s)) (in_idx s) (in_jdx s);
  ap_g : exists p, good_slice (p, sw_out (in_inner s))
}.
Definition standing (s : @intersections C) : Prop := at_pair s \/ sw_out (in_inner s) = [].
Definition todo (s : @intersections C) : list (nat * nat) := rem (List.length (sw_out (in_inner s))) (in_idx s) (in_jdx s).
Definition size (ys : output C) : nat := List.length (flat_map (fun y => all_pairs (snd y)) ys).

Lemma in_intersection_ok : forall s, at_pair s -> exists r, in_intersection line_of s = Ok r /\
  pair_report (sw_out (in_inner s)) (in_idx s, in_jdx s) = match r with Some t => [t] | None => [] end.
Proof.
  intros s [Lk Ll Ff (p & On & Ch & Cm)]. unfold in_intersection, index, ci_intersections, pair_report. cbn [fst snd].
  set (o := sw_out (in_inner s)) in *. cbn [snd fst] in *.
  destruct (nth_error o (in_idx s)) as [si|] eqn:Ei; [|apply nth_error_None in Ei; lia].
  destruct (nth_error o (in_jdx s)) as [sj|] eqn:Ej; [|apply nth_error_None in Ej; lia].
  cbn [expect bind]. rewrite Ff. set (f := ovl_flag o (in_idx s) (in_jdx s)) in *.
  assert (Go : (if f
    then let* _ := check (Bool.eqb (cr_left si) (cr_left sj)) "crossings.rs:284 debug_assert_eq" in Ok (cr_left si && (cr_first si || cr_first sj))
    else Ok ((negb (cr_left si) || cr_first si) && (negb (cr_left sj) || cr_first sj))) = Ok (worth f si sj)).
  { unfold worth. destruct f eqn:Ef; [|reflexivity].
    destruct (flag_chain o Ch (in_jdx s) (in_idx s) si sj ltac:(lia) Ef Ei Ej) as [_ E]. rewrite E, eqb_reflx. reflexivity. }
  rewrite Go. cbn [bind]. destruct (worth f si sj); [|exists None; split; reflexivity].
  rewrite Cm by (eapply nth_error_In; eauto). pose proof (line_intersection_all (line_of (cr_cross si)) (line_of (cr_cross sj))) as X.
  destruct (line_intersection _ _) as [i|]; cbn [expect bind].
  - eexists (Some _). split; reflexivity.
  - exfalso. apply (X p). split; apply On; eapply nth_error_In; eauto.
Qed.

Lemma todo_cons : forall s k l rest, standing s -> todo s = (k, l) :: rest ->
  forall fuel, exists s', in_step line_of tie fuel s = Ok (s', true) /\ at_pair s' /\ in_idx s' = k /\ in_jdx s' = l /\ todo s' = rest /\ in_inner s' = in_inner s.
Proof.
  intros s k l rest [[Lk Ll Ff Fg]|E0] Et fuel.
  2:{ exfalso. unfold todo in Et. rewrite E0 in Et. cbn [List.length] in Et. unfold rem in Et. rewrite row_nil, rows_nil in Et by lia. discriminate. }
  unfold in_step, ci_intersections. unfold todo in *. set (o := sw_out (in_inner s)) in *. set (n := List.length o) in *.
  destruct (Nat.ltb_spec (1 + in_jdx s) n) as [L|L].
  - unfold rem in Et. rewrite row_cons in Et by lia. cbn [app] in Et. injection Et as <- <- <-.
    destruct (nth_error o (in_jdx s)) as [x|] eqn:Ex; [|apply nth_error_None in Ex; unfold n in *; lia].
    unfold index. rewrite Ex. cbn [expect bind].
    assert (E : (if in_ovl s then Ok (cr_overlap x) else Ok false) = Ok (ovl_flag o (in_idx s) (S (in_jdx s)))).
    { rewrite (flag_S o _ _ x) by (auto; lia). rewrite Ff. destruct (ovl_flag o (in_idx s) (in_jdx s)); reflexivity. }
    rewrite E. cbn [bind]. eexists. split; [reflexivity|]. split; [|cbn; auto]. constructor; cbn [in_inner in_idx in_jdx in_ovl]; try assumption; try reflexivity; try (fold o; fold n; lia).
  - destruct (Nat.leb_spec n (1 + S (in_idx s))) as [L'|L'].
    + exfalso. unfold rem in Et. rewrite row_nil, rows_nil in Et by lia. discriminate.
    + unfold rem in Et. rewrite row_nil in Et by lia. cbn [app] in Et. rewrite rows_cons in Et by lia. injection Et as <- <- <-.
      destruct (nth_error o (S (in_idx s))) as [x|] eqn:Ex; [|apply nth_error_None in Ex; unfold n in *; lia].
      unfold index. rewrite Ex. cbn [expect bind]. eexists. split; [reflexivity|]. split; [|cbn; auto].
      constructor; cbn [in_inner in_idx in_jdx in_ovl]; try assumption; try reflexivity; try (fold o; fold n; lia). symmetry. apply flag_1. exact Ex.
Qed.
Lemma advance_ok : forall ys sw, yl sw ys -> Forall good_slice ys -> forall fuel ff, List.length ys < fuel -> B < ff ->
  (exists sw', in_advance line_of tie fuel ff sw = Ok (sw', None) /\ sw_out sw' = [] /\ size ys = 0 /\ reports ys = []) \/
  (exists sw' p ys', in_advance line_of tie fuel ff sw = Ok (sw', Some p) /\ good_slice (p, sw_out sw') /\ 1 < List.length (sw_out sw') /\ yl sw' ys' /\
     Forall good_slice ys' /\ List.length ys' < List.length ys /\ size ys = List.length (all_pairs (sw_out sw')) + size ys' /\
     reports ys = slice_reports (sw_out sw') ++ reports ys').
Proof.
  intros ys sw Y. induction Y as [sw sw' N E|sw sw' p ys N Y IH]; intros G fuel ff L Lf; (destruct fuel as [|fuel]; [cbn in L; lia|]); cbn [in_advance].
  - left. exists sw'. rewrite N by auto. auto.
  - rewrite N by auto. cbn [bind]. unfold ci_intersections. inversion G as [|? ? G1 G2]; subst.
    destruct (Nat.ltb_spec 1 (List.length (sw_out sw'))) as [L1|L1].
    + right. exists sw', p, ys. split; [auto|]. split; [auto|]. split; [auto|]. split; [auto|]. split; [auto|]. cbn [List.length]. split; [lia|].
      split; [|reflexivity]. unfold size. cbn [flat_map snd]. rewrite app_length. reflexivity.
    + assert (Z : all_pairs (sw_out sw') = []) by (apply rows_nil; auto).
      assert (Z' : slice_reports (sw_out sw') = []) by (unfold slice_reports; rewrite Z; reflexivity).
      assert (Sz : size ((p, sw_out sw') :: ys) = size ys) by (unfold size; cbn [flat_map snd]; rewrite Z; reflexivity).
      assert (Rp : reports ((p, sw_out sw') :: ys) = reports ys) by (unfold reports; cbn [flat_map snd]; rewrite Z'; reflexivity).
      rewrite Sz, Rp. cbn [List.length] in L |- *. destruct (IH G2 fuel ff ltac:(lia) Lf) as [(s1 & A)|(s1 & q & ys' & A1 & A2 & A3 & A4 & A5 & A6 & A7)].
      * left. exists s1. exact A.
      * right. exists s1, q, ys'. split; [auto|]. split; [auto|]. split; [auto|]. split; [auto|]. split; [auto|]. split; [lia|auto].
Qed.
Lemma todo_nil : forall s ys, standing s -> todo s = [] -> yl (in_inner s) ys -> Forall good_slice ys ->
  forall fuel, List.length ys + B < fuel ->
  (exists s', in_step line_of tie fuel s = Ok (s', false) /\ sw_out (in_inner s') = [] /\ reports ys = []) \/
  (exists s' ys', in_step line_of tie fuel s = Ok (s', true) /\ at_pair s' /\ yl (in_inner s') ys' /\ Forall good_slice ys' /\
     List.length ys' < List.length ys /\ size ys = S (List.length (todo s')) + size ys' /\
     reports ys = flat_map (pair_report (sw_out (in_inner s'))) ((in_idx s', in_jdx s') :: todo s') ++ reports ys').
Proof.
  intros s ys St Et Y G fuel L. unfold in_step, ci_intersections, todo in *. set (o := sw_out (in_inner s)) in *. set (n := List.length o) in *.
  assert (Q : n <= 1 + in_jdx s /\ n <= 1 + S (in_idx s)).
  { destruct St as [[Lk Ll _ _]|E0]; [|unfold n, o; rewrite E0; cbn; lia]. fold o in Ll. fold n in Ll. unfold rem in Et.
    destruct (le_lt_dec n (S (in_jdx s))) as [|L1]; [|rewrite row_cons in Et by lia; discriminate]. split; [lia|].
    destruct (le_lt_dec n (S (S (in_idx s)))) as [|L2]; [lia|]. rewrite row_nil in Et by lia. rewrite rows_cons in Et by lia. discriminate. }
  destruct (Nat.ltb_spec (1 + in_jdx s) n) as [L1|L1]; [lia|]. destruct (Nat.leb_spec n (1 + S (in_idx s))) as [L2|L2]; [|lia].
  destruct (advance_ok ys _ Y G fuel fuel ltac:(lia) ltac:(lia)) as [(s1 & A1 & A2 & A3 & A4)|(s1 & q & ys' & A1 & A2 & A3 & A4 & A5 & A6 & A7 & A8)]; rewrite A1; cbn [bind].
  - left. eexists. split; [reflexivity|]. cbn. auto.
  - right. destruct (nth_error (sw_out s1) 0) as [x|] eqn:Ex; [|apply nth_error_None in Ex; lia].
    unfold index. rewrite Ex. cbn [expect bind]. eexists _, ys'. split; [reflexivity|]. cbn [in_inner in_idx in_jdx].
    assert (AP : all_pairs (sw_out s1) = (0, 1) :: rem (List.length (sw_out s1)) 0 1) by (apply rows_cons; auto).
    split; [constructor; cbn [in_inner in_idx in_jdx in_ovl]; try assumption; try reflexivity; try (fold o; fold n; lia)|].
    + symmetry. apply flag_1. exact Ex.
    + exists q. exact A2.
    + split; [auto|]. split; [auto|]. split; [auto|]. rewrite A7, A8. unfold slice_reports. rewrite AP. split; reflexivity.
Qed.

Lemma next_ok : forall m s ys, standing s -> yl (in_inner s) ys -> Forall good_slice ys -> List.length (todo s) + size ys = m ->
  forall fuel, m + List.length ys + B < fuel ->
  exists s' r, in_next line_of tie fuel s = Ok (s', r) /\
   match r with
   | None => flat_map (pair_report (sw_out (in_inner s))) (todo s) ++ reports ys = []
   | Some t => exists ys', at_pair s' /\ yl (in_inner s') ys' /\ Forall good_slice ys' /\ List.length (todo s') + size ys' < m /\ List.length ys' <= List.length ys /\
        flat_map (pair_report (sw_out (in_inner s))) (todo s) ++ reports ys =
        t :: flat_map (pair_report (sw_out (in_inner s'))) (todo s') ++ reports ys'
   end.
Proof.
  induction m as [m IH] using lt_wf_ind. intros s ys St Y G Em fuel L. destruct fuel as [|fuel]; [lia|]. cbn [in_next].
  destruct (todo s) as [|[k l] rest] eqn:Et.
  - cbn [List.length] in Em. destruct (todo_nil s ys St Et Y G (S fuel) ltac:(lia)) as [(s1 & A1 & A2 & A3)|(s1 & ys' & A1 & A2 & A3 & A4 & A5 & A6 & A7)]; rewrite A1; cbn [bind].
    + exists s1, None. split; [reflexivity|]. cbn [flat_map app]. exact A3.
    + destruct (in_intersection_ok s1 A2) as (r & E & Er). rewrite E. cbn [bind]. cbn [flat_map app] in A7 |- *. rewrite A7, Er. destruct r as [t|].
      * exists s1, (Some t). split; [reflexivity|]. exists ys'. split; [auto|]. split; [auto|]. split; [auto|]. split; [lia|]. split; [lia|reflexivity].
      * destruct (IH (List.length (todo s1) + size ys') ltac:(lia) s1 ys' (or_introl A2) A3 A4 eq_refl fuel ltac:(lia)) as (s2 & r & E2 & R2).
        exists s2, r. split; [exact E2|]. cbn [app]. destruct r as [t|]; [|exact R2]. destruct R2 as (ys2 & B1 & B2 & B3 & B4 & B5 & B6).
        exists ys2. split; [auto|]. split; [auto|]. split; [auto|]. split; [lia|]. split; [lia|auto].
  - cbn [List.length] in Em. destruct (todo_cons s k l rest St Et (S fuel)) as (s1 & A1 & A2 & A3 & A4 & A5 & A6). rewrite A1. cbn [bind].
    destruct (in_intersection_ok s1 A2) as (r & E & Er). rewrite E. cbn [bind]. rewrite A3, A4, A6 in Er. cbn [flat_map]. rewrite Er.
    assert (Y1 : yl (in_inner s1) ys) by (rewrite A6; exact Y).
    destruct r as [t|].
    + exists s1, (Some t). split; [reflexivity|]. exists ys. split; [auto|]. split; [auto|]. split; [auto|]. rewrite A5, A6. split; [lia|]. split; [lia|reflexivity].
    + destruct (IH (List.length (todo s1) + size ys) ltac:(rewrite A5; lia) s1 ys (or_introl A2) Y1 G eq_refl fuel ltac:(rewrite A5; lia)) as (s2 & r & E2 & R2).
      exists s2, r. split; [exact E2|]. rewrite A5, A6 in R2. cbn [app]. destruct r as [t|]; [|exact R2]. destruct R2 as (ys2 & B1 & B2 & B3 & B4 & B5 & B6).
      exists ys2. split; [auto|]. split; [auto|]. split; [auto|]. split; [lia|]. split; [lia|auto].
Qed.
Lemma drain_ok : forall m s ys, standing s -> yl (in_inner s) ys -> Forall good_slice ys -> List.length (todo s) + size ys = m ->
  forall fuel n, m + List.length ys + B < fuel -> m < n ->
  in_drain line_of tie n fuel s = Ok (flat_map (pair_report (sw_out (in_inner s))) (todo s) ++ reports ys).
Proof.
  induction m as [m IH] using lt_wf_ind. intros s ys St Y G Em fuel n L Ln. destruct n as [|n]; [lia|]. cbn [in_drain].
  destruct (next_ok m s ys St Y G Em fuel L) as (s' & r & E & R). rewrite E. cbn [bind]. destruct r as [t|].
  - destruct R as (ys' & B1 & B2 & B3 & B4 & B5 & B6).
    rewrite (IH _ B4 s' ys' (or_introl B1) B2 B3 eq_refl fuel n ltac:(lia) ltac:(lia)). cbn [bind]. rewrite B6. reflexivity.
  - rewrite R. reflexivity.
Qed.
Lemma collect_ok : forall input it ys, ci_from_iter line_of input = Ok it -> sw_out it = [] -> yl it ys -> Forall good_slice ys ->
  forall fuel, size ys + List.length ys + B < fuel -> in_collect line_of tie fuel input = Ok (reports ys).
Proof.
  intros input it ys E O Y G fuel L. unfold in_collect, in_from_iter. rewrite E. cbn [bind].
  assert (T : todo (mkInts it 0 0 false None) = []) by (unfold todo; cbn [in_inner in_idx in_jdx]; rewrite O; reflexivity).
  rewrite (drain_ok (size ys) (mkInts it 0 0 false None) ys); auto; try lia.
  - rewrite T. reflexivity.
  - right. exact O.
  - rewrite T. reflexivity.
Qed.
End Ints.
