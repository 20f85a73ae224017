(** Rasterising a stretched polygon. *)
Require Import List Bool Arith String QArith Permutation.
From Verif Require Import Base Scalar M_Events M_Geo M_MonoPoly M_Raster M_RasterUse M_RasterBounds M_MonoSweep M_Chains S_Geo S_Move P_Geo P_Param P_MoveGeo P_Stretch Props_Same Props_Chains Props_Cells Props_Bounds.
Import ListNotations.
Local Open Scope list_scope.
Local Open Scope Qc_scope.

(** Both axes get another unit of length and another origin. *)
Definition stretched (sx ox sy oy : Qc) (p : pt) : pt := mkC (sx * cx p + ox) (sy * cy p + oy).
Lemma stretched_affine : forall sx ox sy oy, affine (stretched sx ox sy oy).
Proof. intros. exists sx, 0, ox, 0, sy, oy. intros p. unfold stretched. f_equal; ring. Qed.
Lemma stretched_order : forall sx ox sy oy, 0 < sx -> 0 < sy -> keeps_order (stretched sx ox sy oy).
Proof.
  intros sx ox sy oy Hx Hy u v L. assert (E : pcmp (stretch sx ox sy oy u) (stretch sx ox sy oy v) = Lt). { rewrite f_cmp by auto. destruct (pcmp_spec u v) as [E|_|M]; auto; exfalso; [subst; eapply lex_irrefl; eauto|eapply lex_asym; eauto]. }
  change (stretched sx ox sy oy) with (stretch sx ox sy oy). destruct (pcmp_spec (stretch sx ox sy oy u) (stretch sx ox sy oy v)); auto; discriminate.
Qed.
(** The library sort sees only the order of the events: sorting the moved list gives
    the moved sorted list. *)
Definition same_sort (f : pt -> pt) (presort presort' : list event -> list event) : Prop :=
  (forall l, Permutation (presort l) l) /\ (forall l, presort' (map (moved_event f) l) = map (moved_event f) (presort l)).
Lemma chains_st : forall presort presort' pick sx ox sy oy P, 0 < sx -> 0 < sy -> same_sort (stretched sx ox sy oy) presort presort' ->
  monotone_chains presort' pick (moved_polygon (stretch sx ox sy oy) P) = rmap (map (moved_piece (stretch sx ox sy oy))) (monotone_chains presort pick P).
Proof. intros presort presort' pick sx ox sy oy P Hx Hy [A B]. apply (C74_affine presort presort' pick P (stretched sx ox sy oy)); auto using stretched_affine, stretched_order. Qed.

(** ** The scanner *)
(** What a scanner of the moved piece reports: the same rows. *)
Theorem C77_ubounds : forall sx ox sy oy m l rs lo hi n, 0 < sx -> 0 < sy ->
  piece_ubounds (sy * lo + oy) (sy * hi + oy) n (sx * l + ox) (map (fun x => sx * x + ox) rs) (moved_piece (stretched sx ox sy oy) m) = piece_ubounds lo hi n l rs m.
Proof.
  intros sx ox sy oy m l rs lo hi n Hx Hy. unfold piece_ubounds. change (stretched sx ox sy oy) with (stretch sx ox sy oy). change (sx * l + ox) with (ax sx ox l). change (fun x => sx * x + ox) with (ax sx ox). rewrite scan_lines_st by auto. destruct (mp_scan_lines m l) as [s|e|]; cbn [rmap bind]; auto.
  change (sy * lo + oy) with (ax sy oy lo). change (sy * hi + oy) with (ax sy oy hi). revert s. induction rs as [|r rs IH]; intros s; [reflexivity|]. cbn [map ubounds_cols]. rewrite cross_ubounds_st by auto.
  destruct (cross_ubounds s r lo hi n) as [[s' b]|e|]; cbn [rmap bind ust fst snd]; auto. rewrite IH. reflexivity.
Qed.

(** ** The loops *)
Lemma map_rep : forall {A B} (g : A -> B) x n, map g (repeat x n) = repeat (g x) n.
Proof. induction n; cbn; congruence. Qed.
(** The benchmark's bitmap is the same bitmap. *)
Theorem C77_our_rasterize : forall presort presort' pick sx ox sy oy P w h,
  0 < sx -> 0 < sy -> same_sort (stretched sy oy sx ox) presort presort' ->
  our_rasterize presort' pick (moved_polygon (stretched sx ox sy oy) P) w h = our_rasterize presort pick P w h.
Proof.
  intros presort presort' pick sx ox sy oy P w h Hx Hy Hp. unfold our_rasterize. change (stretched sx ox sy oy) with (stretch sx ox sy oy). rewrite swap_st, bounding_st by auto. destruct (poly_bounding_rect (swap_poly P)) as [[[l b] [r t]]|]; [|reflexivity]. cbn [option_map expect bind mrect r_min r_max stretch cx cy].
  rewrite (chains_st presort presort' pick) by auto. destruct (monotone_chains presort pick (swap_poly P)) as [ms|e|]; cbn [rmap bind]; auto.
  rewrite !ax_sub. replace (map (fun i => ax sy oy l + sy * (r - l) / of_nat h * of_nat i) (seq 0 h)) with (map (ax sy oy) (map (fun i => l + (r - l) / of_nat h * of_nat i) (seq 0 h))) by (rewrite map_map; apply map_ext; intros i; unfold ax, Qcdiv; ring).
  set (rs := map (fun i => l + (r - l) / of_nat h * of_nat i) (seq 0 h)). clearbody rs. generalize (repeat false (h * w)). induction ms as [|m ms IH]; intros arr; [reflexivity|]. cbn [map fold_res].
  rewrite scan_lines_st by auto. destruct (mp_scan_lines m l) as [s|e|]; cbn [rmap bind]; auto. rewrite mark_cols_st by auto. destruct (mark_cols _ _ _ _ _ _ _); cbn [bind]; auto.
Qed.
(** The array of areas is multiplied by the factor by which areas grow. *)
Theorem C77_our_area : forall presort presort' pick sx ox sy oy P w h,
  0 < sx -> 0 < sy -> same_sort (stretched sy oy sx ox) presort presort' ->
  our_area presort' pick (moved_polygon (stretched sx ox sy oy) P) w h = moved_result (map (map (fun v => sx * sy * v))) (our_area presort pick P w h).
Proof.
  intros presort presort' pick sx ox sy oy P w h Hx Hy Hp. unfold our_area. change (stretched sx ox sy oy) with (stretch sx ox sy oy). rewrite swap_st, bounding_st by auto. destruct (poly_bounding_rect (swap_poly P)) as [[[l b] [r t]]|]; [|reflexivity]. cbn [option_map expect bind mrect r_min r_max stretch cx cy].
  rewrite (chains_st presort presort' pick) by auto. destruct (monotone_chains presort pick (swap_poly P)) as [ms|e|]; cbn [rmap bind moved_result]; auto.
  rewrite !ax_sub. replace (map (fun i => ax sy oy l + sy * (r - l) / of_nat h * of_nat i) (seq 0 h)) with (map (ax sy oy) (map (fun i => l + (r - l) / of_nat h * of_nat i) (seq 0 h))) by (rewrite map_map; apply map_ext; intros i; unfold ax, Qcdiv; ring).
  set (rs := map (fun i => l + (r - l) / of_nat h * of_nat i) (seq 0 h)). clearbody rs.
  assert (E : map (map (fun v => sx * sy * v)) = map (map (fun v => sy * sx * v))). 2:{
  assert (Z : repeat (repeat 0 w) h = map (map (fun v => sy * sx * v)) (repeat (repeat 0 w) h)). { rewrite !map_rep. do 2 f_equal. ring. }
  rewrite Z at 1. rewrite (raster_pieces_st sy oy sx ox Hy Hx). rewrite <- E. reflexivity. }
  replace (sx * sy) with (sy * sx) by ring. reflexivity.
Qed.
(** So are the totals. *)
Lemma fold_plus : forall k l a, fold_left Qcplus (map (fun v => k * v) l) (k * a) = k * fold_left Qcplus l a.
Proof. intros k. induction l as [|v l IH]; intros a; [reflexivity|]. cbn [map fold_left]. rewrite <- IH. f_equal. ring. Qed.
Theorem C77_scanned_area : forall presort presort' pick sx ox sy oy P n,
  0 < sx -> 0 < sy -> same_sort (stretched sx ox sy oy) presort presort' ->
  scanned_area presort' pick (moved_polygon (stretched sx ox sy oy) P) n = moved_result (fun v => sx * sy * v) (scanned_area presort pick P n).
Proof.
  intros presort presort' pick sx ox sy oy P n Hx Hy Hp. unfold scanned_area. change (stretched sx ox sy oy) with (stretch sx ox sy oy). rewrite bounding_st by auto. destruct (poly_bounding_rect P) as [[[l b] [r t]]|]; [|reflexivity]. cbn [option_map expect bind mrect r_min r_max stretch cx cy].
  rewrite (chains_st presort presort' pick) by auto. destruct (monotone_chains presort pick P) as [ms|e|]; cbn [rmap bind moved_result]; auto.
  rewrite !ax_sub. replace (map (fun i => qmin (ax sx ox r) (ax sx ox l + of_nat (i + 1) * (sx * (r - l) / of_nat n))) (seq 0 n)) with (map (ax sx ox) (map (fun i => qmin r (l + of_nat (i + 1) * ((r - l) / of_nat n))) (seq 0 n)))
    by (rewrite map_map; apply map_ext; intros i; rewrite <- (ax_min _ _ Hx); f_equal; unfold ax, Qcdiv; ring).
  set (rs := map (fun i => qmin r _) (seq 0 n)). clearbody rs. change (@moved_result Qc Qc) with (@rmap Qc Qc).
  match goal with |- fold_res ?F 0 _ = rmap ?g (fold_res ?G 0 ms) => pose proof (fold_res_st g (moved_piece (stretch sx ox sy oy)) G F) as FR end.
  match type of FR with ?A -> _ => assert (H : A) end; [|specialize (FR H ms 0); cbv beta in FR; replace (sx * sy * 0) with 0 in FR by ring; exact FR].
  intros a m. eapply bind_map; [apply scan_lines_st; auto|]. intros s _.
  assert (Z : repeat 0 n = map (fun v => sx * sy * v) (repeat 0 n)) by (rewrite map_rep; f_equal; ring). rewrite Z at 1.
  eapply bind_map; [apply slice_cols_st; auto|]. intros arr _. cbn [rmap]. f_equal. pose proof (fold_plus (sx * sy) arr 0) as FP. replace (sx * sy * 0) with 0 in FP by ring. cbv beta. rewrite FP. ring.
Qed.

(** ** An example: other units, another origin, another sort *)
Example C77_example :
  let f := stretched (whole 3) (whole 100) (/ whole 7) (- whole 50) in
  let g := stretched (/ whole 7) (- whole 50) (whole 3) (whole 100) in
  same_sort f (fun l => l) (fun l => l) /\ same_sort g (fun l => l) (fun l => l) /\
  our_rasterize (fun l => l) (fun _ _ _ => 0%nat) (moved_polygon f arms) 3 2 = Ok [true; true; true; false; false; false] /\
  (exists v, scanned_area (fun l => l) (fun _ _ _ => 0%nat) (moved_polygon f arms) 4 = Ok v /\ this v = this (whole 96 / whole 7)).
Proof.
  cbv zeta. split; [split; [apply Permutation_refl|reflexivity]|]. split; [split; [apply Permutation_refl|reflexivity]|].
  split; [vm_compute; reflexivity|]. eexists. split; [vm_compute; reflexivity|]. vm_compute. reflexivity.
Qed.
