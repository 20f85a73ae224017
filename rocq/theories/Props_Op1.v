(** Boolean operations, region labels and input edges (C43, C44). *)
Require Import List String Bool Arith Lia.
From Verif Require Import Base Scalar M_Events M_Geo M_LineOrPoint S_Geo P_Geo P_LineOrPoint M_MonoPoly S_Mono M_Rings S_Rings P_Rings M_Op S_Op.
Import ListNotations.
Local Open Scope string_scope.
Local Open Scope nat_scope.
Local Open Scope list_scope.

(** ** C43 *)
(** The label after crossing edges, the first operand's given by [true]. *)
Definition label (ty : op_type) (crossed : list bool) : region :=
  fold_left (fun r f => region_cross f r) crossed (region_infinity ty).
Lemma label_bits : forall fs r,
  fold_left (fun r f => region_cross f r) fs r =
  mkRegion (xorb (is_first r) (odd fs)) (xorb (is_second r) (odd (map negb fs))).
Proof.
  induction fs as [|f fs IH]; intros r; [destruct r; cbn; rewrite !xorb_false_r; reflexivity|].
  cbn [fold_left map odd fold_right]. rewrite IH. destruct f; cbn [region_cross is_first is_second]; f_equal;
  fold (odd fs) (odd (map negb fs)); destruct r as [[] []]; destruct (odd fs), (odd (map negb fs)); reflexivity.
Qed.
Lemma odd_count : forall l, odd l = Nat.odd (count_occ bool_dec l true).
Proof.
  induction l as [|x l IH]; [reflexivity|]. cbn [odd fold_right count_occ]. fold (odd l). rewrite IH.
  destruct (bool_dec x true) as [->|N]; [rewrite Nat.odd_succ, <- Nat.negb_odd; destruct (Nat.odd _); reflexivity|].
  destruct x; [contradiction|]. destruct (Nat.odd _); reflexivity.
Qed.
Lemma odd_count_negb : forall l, odd (map negb l) = Nat.odd (count_occ bool_dec l false).
Proof.
  intros l. rewrite odd_count. f_equal. induction l as [|x l IH]; [reflexivity|]. destruct x; cbn; rewrite IH; reflexivity.
Qed.
Theorem C43_label_is_the_operation : forall ty crossed,
  is_ty (label ty crossed) ty = result ty (Nat.odd (count_occ bool_dec crossed true)) (Nat.odd (count_occ bool_dec crossed false)).
Proof.
  intros ty fs. unfold label. rewrite label_bits, odd_count, odd_count_negb.
  destruct ty; cbn; destruct (Nat.odd _), (Nat.odd _); reflexivity.
Qed.
Theorem C43_unbounded_region_is_outside : forall ty, is_ty (region_infinity ty) ty = false.
Proof. intros []; reflexivity. Qed.
Example C43_example : is_ty (label Difference [true; false; true; true; false]) Difference = true.
Proof. reflexivity. Qed.

(** ** C44 *)
Lemma opt_pt_eqb_refl : forall a, opt_pt_eqb a a = true.
Proof. intros [a|]; [|reflexivity]. simpl. apply peqb_refl. Qed.
Lemma last_nth : forall {X} (l : list X) d, l <> [] -> nth_error l (List.length l - 1) = Some (last l d).
Proof.
  intros X l d N. destruct (exists_last N) as (l' & x & ->). rewrite app_length, last_last. cbn [List.length].
  replace (List.length l' + 1 - 1) with (List.length l') by lia. rewrite nth_error_app2, Nat.sub_diag by lia. reflexivity.
Qed.
Lemma closed_iff : forall r, ls_is_closed r = true <-> closed r.
Proof.
  intros [|p r]; [split; reflexivity|]. unfold ls_is_closed, closed, last_opt, first. rewrite (last_nth _ p) by discriminate.
  cbn [nth_error opt_pt_eqb]. destruct (peqb_spec p (last (p :: r) p)) as [E|N]; split; intros; try discriminate; congruence.
Qed.
Lemma lines_edges : forall l, ls_lines l = map (fun e => mkLine (fst e) (snd e)) (edges l).
Proof.
  induction l as [|p [|q l] IH]; [reflexivity|reflexivity|]. change (ls_lines (p :: q :: l)) with (mkLine p q :: ls_lines (q :: l)). rewrite IH. reflexivity.
Qed.
(** A recorded edge: normal form, operand, initial labels. *)
Definition recorded (ty : op_type) (fe : bool * (pt * pt)) (g : edge) : Prop :=
  normal_form (snd fe) (e_geom g) /\ e_first g = fst fe /\ e_region g = region_infinity ty /\ e_region2 g = region_infinity ty.
Lemma add_line_ok : forall ty es first a b,
  exists new, add_line first (mkOp ty es) (mkLine a b) = mkOp ty (es ++ new) /\
    Forall2 (recorded ty) (map (pair first) (filter (fun e => negb (pt_eqb (fst e) (snd e))) [(a, b)])) new.
Proof.
  intros ty es first a b. unfold add_line. cbn [op_ty op_edges filter fst snd].
  destruct (pt_eqb a b) eqn:Eab; [apply pt_eqb_iff in Eab; subst b|].
  - exists []. split; [|constructor]. unfold lop_of_line. cbn [l_start l_end].
    destruct (pcmp_spec a a) as [_|L|L]; [|lord|lord]. rewrite app_nil_r. reflexivity.
  - assert (N : a <> b) by (intros E; apply pt_eqb_iff in E; congruence). cbn [negb map]. unfold lop_of_line in *. cbn [l_start l_end] in *.
    destruct (pcmp_spec a b) as [E|L|L]; [contradiction| |]; cbn [is_line] in *; eexists; (split; [reflexivity|]); (constructor; [|constructor]);
    (split; [|auto]); cbn [snd e_geom]; eexists _, _; (split; [reflexivity|]); auto.
Qed.
Lemma add_lines_ok : forall ty first l es,
  exists new, fold_left (add_line first) (map (fun e => mkLine (fst e) (snd e)) l) (mkOp ty es) = mkOp ty (es ++ new) /\
    Forall2 (recorded ty) (map (pair first) (filter (fun e => negb (pt_eqb (fst e) (snd e))) l)) new.
Proof.
  intros ty first l. induction l as [|[a b] l IH]; intros es.
  - exists []. cbn. rewrite app_nil_r. split; [reflexivity|constructor].
  - cbn [map fold_left fst snd]. destruct (add_line_ok ty es first a b) as (n1 & E1 & F1). rewrite E1.
    destruct (IH (es ++ n1)) as (n2 & E2 & F2). rewrite E2. exists (n1 ++ n2). rewrite app_assoc. split; [reflexivity|].
    change ((a, b) :: l) with ([(a, b)] ++ l). rewrite filter_app, map_app. apply Forall2_app; auto.
Qed.
Lemma add_ring_ok : forall ty first r es, closed r ->
  exists new, add_closed_ring r first (mkOp ty es) = Ok (mkOp ty (es ++ new)) /\
    Forall2 (recorded ty) (map (pair first) (ring_edges r)) new.
Proof.
  intros ty first r es Cl. unfold add_closed_ring, ring_edges. rewrite (proj2 (closed_iff r) Cl). cbn [check bind].
  destruct (List.length r <=? 3)%nat; [exists []; rewrite app_nil_r; split; [reflexivity|constructor]|].
  rewrite lines_edges. destruct (add_lines_ok ty first (edges r) es) as (new & E & F). exists new. rewrite E. auto.
Qed.
Lemma add_rings_ok : forall ty first rs es, (forall r, In r rs -> closed r) ->
  exists new, fold_res (fun o h => add_closed_ring h first o) (mkOp ty es) rs = Ok (mkOp ty (es ++ new)) /\
    Forall2 (recorded ty) (map (pair first) (flat_map ring_edges rs)) new.
Proof.
  intros ty first rs. induction rs as [|r rs IH]; intros es Cl.
  - exists []. cbn. rewrite app_nil_r. split; [reflexivity|constructor].
  - destruct (add_ring_ok ty first r es) as (n1 & E1 & F1); [apply Cl; left; auto|].
    destruct (IH (es ++ n1)) as (n2 & E2 & F2); [intros; apply Cl; right; auto|].
    cbn [fold_res]. rewrite E1. cbn [bind]. rewrite E2. exists (n1 ++ n2). rewrite app_assoc. split; [reflexivity|].
    cbn [flat_map]. rewrite map_app. apply Forall2_app; auto.
Qed.
Lemma fold_res_app' : forall {A B} (f : B -> A -> res B) l l' s, fold_res f s (l ++ l') = (let* s' := fold_res f s l in fold_res f s' l').
Proof.
  intros A B f l. induction l as [|x l IH]; intros l' s; [reflexivity|]. cbn [app fold_res]. destruct (f s x); cbn [bind]; auto.
Qed.
Lemma add_multi_rings : forall first mp o,
  add_multi_polygon mp first o = fold_res (fun o h => add_closed_ring h first o) o (rings_in mp).
Proof.
  intros first mp. induction mp as [|p mp IH]; intros o; [reflexivity|]. unfold add_multi_polygon in *. cbn [fold_res rings_in flat_map].
  fold (rings_in mp). rewrite fold_res_app'. change (add_polygon p first o) with (fold_res (fun o h => add_closed_ring h first o) o (pg_exterior p :: pg_interiors p)).
  destruct (fold_res _ o (pg_exterior p :: pg_interiors p)); cbn [bind]; auto.
Qed.
Theorem C44_edges_of_the_operands : forall ty a b, all_closed a -> all_closed b ->
  exists es, op_input ty a b = Ok (mkOp ty es) /\
    Forall2 (recorded ty) (map (pair true) (proper_edges a) ++ map (pair false) (proper_edges b)) es.
Proof.
  intros ty a b Ca Cb. unfold op_input, op_new. rewrite add_multi_rings.
  destruct (add_rings_ok ty true (rings_in a) [] Ca) as (n1 & E1 & F1). rewrite E1. cbn [bind app]. rewrite add_multi_rings.
  destruct (add_rings_ok ty false (rings_in b) n1 Cb) as (n2 & E2 & F2). rewrite E2. exists (n1 ++ n2). split; [reflexivity|].
  apply Forall2_app; auto.
Qed.
Lemma add_rings_open : forall first rs r o, In r rs -> ~ closed r ->
  exists msg, fold_res (fun o h => add_closed_ring h first o) o rs = Panic msg.
Proof.
  intros first rs. induction rs as [|r' rs IH]; intros r o I N; [destruct I|]. cbn [fold_res].
  destruct (ls_is_closed r') eqn:E.
  - destruct I as [->|I]; [apply closed_iff in E; contradiction|].
    unfold add_closed_ring at 1. rewrite E. cbn [check bind]. destruct (List.length r' <=? 3)%nat; cbn [bind]; eapply IH; eauto.
  - unfold add_closed_ring at 1. rewrite E. eexists; reflexivity.
Qed.
Theorem C44_open_ring_panics : forall ty a b r, In r (rings_in a) \/ In r (rings_in b) -> ~ closed r ->
  exists msg, op_input ty a b = Panic msg.
Proof.
  intros ty a b r I N. unfold op_input. rewrite add_multi_rings.
  destruct I as [I|I]; [destruct (add_rings_open true _ r (op_new ty) I N) as (m & E); rewrite E; eexists; reflexivity|].
  destruct (fold_res _ (op_new ty) (rings_in a)) as [o|m|] eqn:E; cbn [bind]; [|eexists; reflexivity|].
  - rewrite add_multi_rings. apply (add_rings_open false _ r o I N).
  - exfalso. revert E. generalize (op_new ty). induction (rings_in a) as [|x l IH]; intros o; [discriminate|].
    cbn [fold_res]. unfold add_closed_ring at 1. destruct (ls_is_closed x); [|discriminate]. cbn [check bind].
    destruct (List.length x <=? 3)%nat; cbn [bind]; apply IH.
Qed.

(** ** Inputs on which the program fails *)
Require Import ZArith Permutation.
From Verif Require Import Props_Rings P_Round P_Ties.
Section Failures.
Local Open Scope Z_scope.
Definition ringz (l : list (Z * Z)) : list pt := map (fun xy => pz (fst xy) (snd xy)) l.
Definition tri (a b c : Z * Z) : list pt := ringz [a; b; c; a].
(** Two triangles that have only the corner (0,0) in common. *)
Definition low_tri : polygon := mkPolygon (tri (0, 0) (2, -2) (9, -1)) [].
Definition high_tri : polygon := mkPolygon (tri (0, 0) (3, 1) (9, 9)) [].
Lemma closed_tri : forall a b c, closed (tri a b c).
Proof. intros. reflexivity. Qed.
Example C44_example : all_closed [low_tri; high_tri] /\ List.length (proper_edges [low_tri; high_tri]) = 6%nat.
Proof. split; [|vm_compute; reflexivity]. intros r [<-|[<-|[]]]; apply closed_tri. Qed.
(** The program on two operands: input, sweep, ring assembly. *)
Definition operate (tie : nat -> nat) (presort : list (M_Sweep.crossing nat) -> list (M_Sweep.crossing nat)) (fuel : nat)
  (ty : op_type) (a b : list polygon) : res (list ring) :=
  let* o := op_input ty a b in op_sweep tie presort fuel o.

(** C53 *)
Theorem C53_union_of_touching_triangles_panics : forall tie,
  all_closed [low_tri] /\ all_closed [high_tri] /\
  operate tie (fun l => l) 100 Union [low_tri] [high_tri] = Panic "rings.rs:154 debug_assert_eq".
Proof.
  intros tie. split; [intros r [<-|[]]; apply closed_tri|]. split; [intros r [<-|[]]; apply closed_tri|].
  unfold operate. destruct (op_input Union [low_tri] [high_tri]) as [o| |] eqn:O; [|vm_compute in O; discriminate O|vm_compute in O; discriminate O].
  assert (O' : Ok o = op_input Union [low_tri] [high_tri]) by (symmetry; exact O). cbn [bind]. unfold op_sweep.
  enough (E : op_run tie (fun l => l) add_edge 100 o rings_default = Panic "rings.rs:154 debug_assert_eq") by (rewrite E; reflexivity).
  pose proof (ties_operation [0; 1; 2; 8; 10]%nat add_edge tie (fun l => l) 100 o rings_default) as T. revert T. cbn [map].
  generalize (tie 0%nat) (tie 1%nat) (tie 2%nat) (tie 8%nat) (tie 10%nat). intros v0 v1 v2 v8 v10 T.
  apply T; [clear T|intros [X|X]; discriminate X].
  change ((let* o := Ok o in op_run (at_clocks [0; 1; 2; 8; 10]%nat [v0; v1; v2; v8; v10] tie) (fun l => l) add_edge 100 o rings_default) = Panic "rings.rs:154 debug_assert_eq").
  rewrite O'. clear. destruct v0 as [|[|[|v0]]], v1 as [|[|v1]], v2 as [|v2], v8 as [|v8], v10 as [|v10]; vm_compute; reflexivity.
Qed.

(** C54 *)
Definition corners : list (Z * Z) := [(0, 0); (9, 0); (9, 9); (0, 9); (0, 0)].
Definition holed_square : polygon := mkPolygon (ringz corners) [tri (2, 4) (4, 2) (6, 5)].
Definition plug : polygon := mkPolygon (tri (2, 4) (4, 2) (6, 5)) [].
Theorem C54_depends_on_the_order_of_equal_crossings :
  exists sorted_first, (forall l, Permutation l (sorted_first l)) /\
  exists tie rs,
    operate tie (fun l => l) 100 Union [holed_square] [plug] = Ok rs /\
    map plain rs = [([(9, 0); (0, 0); (0, 9); (9, 9); (9, 0)]%Q, false)] /\
    operate tie sorted_first 100 Union [holed_square] [plug] = Panic "rings.rs:76 unwrap on None".
Proof.
  exists (@rev _). split; [apply Permutation_rev|]. exists (fun _ => 1%nat). eexists. split; [|split]; vm_compute; reflexivity.
Qed.
Theorem C54_wrong_polygon :
  exists sorted_first, (forall l, Permutation l (sorted_first l)) /\
  exists tie rs, operate tie sorted_first 100 Union [holed_square] [plug] = Ok rs /\ List.length rs <> 1%nat.
Proof.
  exists (@rev _). split; [apply Permutation_rev|]. exists (fun _ => 3%nat). eexists. split; [vm_compute; reflexivity|]. vm_compute. discriminate.
Qed.
End Failures.
