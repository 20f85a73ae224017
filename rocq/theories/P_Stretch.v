(** Stretching both axes: scanning and rasterising. *)
Require Import List String Bool Arith ZArith Lia.
From Verif Require Import Base Scalar M_Events M_Geo M_MonoPoly M_Raster M_RasterUse M_RasterBounds M_MonoSweep M_Chains S_Geo S_Mono S_Move P_Geo P_Param P_MoveGeo.
Import ListNotations.
Local Open Scope Qc_scope.

(** ** One axis *)
Section Axis.
Variables (s o : Qc).
Hypothesis Hs : 0 < s.
Definition ax (v : Qc) : Qc := s * v + o.
Lemma ax_lt : forall a b, ax a < ax b <-> a < b.
Proof. intros a b. unfold ax. rewrite <- (lt_mul s a b Hs). set (x := s * a). set (y := s * b). clearbody x y. clear Hs. split; intros L; qcl. Qed.
Lemma ax_inj : forall a b, ax a = ax b <-> a = b.
Proof. intros a b. unfold ax. rewrite <- (eq_mul s a b Hs). set (x := s * a). set (y := s * b). clearbody x y. clear Hs. split; intros L; [qcl|congruence]. Qed.
Lemma ax_cmp : forall a b, (ax a ?= ax b) = (a ?= b).
Proof.
  intros a b. destruct (qcmp_spec a b) as [E|L|L].
  - subst b. destruct (qcmp_spec (ax a) (ax a)) as [_|K|K]; auto; destruct (Qclt_not_eq _ _ K eq_refl).
  - apply ax_lt in L. destruct (qcmp_spec (ax a) (ax b)) as [E|_|K]; auto; exfalso; qcl.
  - apply ax_lt in L. destruct (qcmp_spec (ax a) (ax b)) as [E|K|_]; auto; exfalso; qcl.
Qed.
Lemma ax_ltb : forall a b, qltb (ax a) (ax b) = qltb a b. Proof. intros. unfold qltb. rewrite ax_cmp. reflexivity. Qed.
Lemma ax_leb : forall a b, qleb (ax a) (ax b) = qleb a b. Proof. intros. unfold qleb. rewrite ax_cmp. reflexivity. Qed.
Lemma ax_eqb : forall a b, qeqb (ax a) (ax b) = qeqb a b. Proof. intros. unfold qeqb. rewrite ax_cmp. reflexivity. Qed.
Lemma ax_min : forall a b, qmin (ax a) (ax b) = ax (qmin a b). Proof. intros. unfold qmin. rewrite ?ax_ltb, ?ax_leb. destruct (_ : bool); reflexivity. Qed.
Lemma ax_max : forall a b, qmax (ax a) (ax b) = ax (qmax a b). Proof. intros. unfold qmax. rewrite ?ax_ltb, ?ax_leb. destruct (_ : bool); reflexivity. Qed.
Lemma ax_sub : forall a b, ax a - ax b = s * (a - b). Proof. intros. unfold ax. ring. Qed.
(** A quotient by zero is zero on both sides. *)
Lemma inv_mul : forall a b : Qc, / (a * b) = / a * / b.
Proof.
  intros a b. destruct (Qc_eq_dec a 0) as [->|A]; [rewrite Qcmult_0_l; replace (/ 0) with 0 by (vm_compute; apply Qc_is_canon; reflexivity); ring|].
  destruct (Qc_eq_dec b 0) as [->|B]; [rewrite Qcmult_0_r; replace (/ 0) with 0 by (vm_compute; apply Qc_is_canon; reflexivity); ring|]. field. auto.
Qed.
Lemma s0 : s <> 0. Proof. intros ->. exact (Qclt_not_eq _ _ Hs eq_refl). Qed.
Lemma ratio_mul : forall a n d, (s * a) * (n / (s * d)) = a * (n / d).
Proof. intros. unfold Qcdiv. rewrite inv_mul. transitivity ((s * / s) * (a * (n * / d))); [ring|]. rewrite Qcmult_inv_r by apply s0. ring. Qed.
Lemma ratio_div : forall a d, (s * a) / (s * d) = a / d.
Proof. intros. unfold Qcdiv. rewrite inv_mul. transitivity ((s * / s) * (a * / d)); [ring|]. rewrite Qcmult_inv_r by apply s0. ring. Qed.
End Axis.

Lemma if_none : forall {A B} (g : A -> B) (b : bool) x, option_map g (if b then None else x) = if b then None else option_map g x.
Proof. intros. destruct b; reflexivity. Qed.

Definition stretch (sx ox sy oy : Qc) (p : pt) : pt := mkC (ax sx ox (cx p)) (ax sy oy (cy p)).

(** ** Scanners *)
Section Scan.
Variables (sx ox sy oy : Qc).
Hypotheses (Hx : 0 < sx) (Hy : 0 < sy).
Notation X := (ax sx ox).
Notation Y := (ax sy oy).
Notation f := (stretch sx ox sy oy).
Definition mvt (t : trip) : trip := mkTrip (X (t_x t)) (Y (t_top t)) (Y (t_bot t)).
Definition mvz (z : trapz) : trapz := mkTrapz (mvt (z_left z)) (mvt (z_right z)).
Definition mvsc (s : scanner) : scanner := mkScan (moved_piece f (sc_poly s)) (mvt (sc_curr s)) (sc_top s) (sc_bot s).
Lemma f_cmp : forall a b, pcmp (f a) (f b) = pcmp a b.
Proof. intros a b. unfold pcmp, stretch. cbn [cx cy]. rewrite (ax_cmp _ _ Hx), (ax_cmp _ _ Hy). reflexivity. Qed.
Lemma f_eqb : forall a b, peqb (f a) (f b) = peqb a b. Proof. intros. unfold peqb. rewrite f_cmp. reflexivity. Qed.
Lemma f_ltb : forall a b, pltb (f a) (f b) = pltb a b. Proof. intros. unfold pltb. rewrite f_cmp. reflexivity. Qed.
Lemma f_opt : forall a b, opt_pt_eqb (option_map f a) (option_map f b) = opt_pt_eqb a b. Proof. intros [a|] [b|]; cbn; auto. apply f_eqb. Qed.
Lemma f_windows : forall l, windows_increase (map f l) = windows_increase l.
Proof. induction l as [|a [|b l] IH]; auto. cbn [map windows_increase] in *. rewrite IH, f_ltb. reflexivity. Qed.
Lemma mp_new_st : forall t b, mp_new (map f t) (map f b) = rmap (moved_piece f) (mp_new t b).
Proof.
  intros t b. unfold mp_new, first, last_opt. rewrite !map_length, !nth_error_map, !f_opt, !f_windows. apply bind_same. intros _ _. apply bind_same. intros _ _. apply bind_same. intros _ _. apply bind_same. intros _ _. reflexivity.
Qed.
Lemma sc_new_st : forall m, sc_new (moved_piece f m) = rmap mvsc (sc_new m).
Proof.
  intros m. unfold sc_new. cbn [moved_piece mp_top mp_bot]. rewrite !nth_error_map. eapply bind_map; [apply expect_map|]. intros t _. eapply bind_map; [apply expect_map|]. intros b _. rewrite f_eqb. apply bind_same. reflexivity.
Qed.
Lemma interpolate_st : forall p q x, interpolate (f p) (f q) (X x) = rmap Y (interpolate p q x).
Proof.
  intros p q x. unfold interpolate. cbn [stretch cx cy]. rewrite !(ax_leb _ _ Hx), (ax_eqb _ _ Hx), (ax_ltb _ _ Hy). apply bind_same. intros _ _. destruct (qeqb (cx q) (cx p)); [reflexivity|].
  cbv zeta. rewrite !ax_sub, (ratio_div _ Hx).
  replace ((x - cx p) / (cx q - cx p) * (sy * (cy q - cy p)) + Y (cy p)) with (Y ((x - cx p) / (cx q - cx p) * (cy q - cy p) + cy p)) by (unfold ax; ring).
  destruct (qltb (cy q) (cy p)); rewrite (ax_max _ _ Hy), (ax_min _ _ Hy); reflexivity.
Qed.
Definition pst (x : option comparison * trip) : option comparison * trip := (fst x, mvt (snd x)).
Definition pos_st (x : pt * pt * comparison * Qc) : pt * pt * comparison * Qc := (f (fst (fst (fst x))), f (snd (fst (fst x))), snd (fst x), X (snd x)).
Lemma peek_st : forall s u, sc_peek_next (mvsc s) (X u) = rmap (option_map pst) (sc_peek_next s u).
Proof.
  intros s u. unfold sc_peek_next. cbn [mvsc sc_poly sc_curr sc_top sc_bot moved_piece mp_top mp_bot]. rewrite !map_length, !nth_error_map. cbv zeta.
  rewrite <- !if_none. set (tv := if (List.length (mp_top (sc_poly s)) <=? _)%nat then _ else _). set (bv := if (List.length (mp_bot (sc_poly s)) <=? _)%nat then _ else _).
  clearbody tv bv. eapply (bind_map (option_map pos_st)).
  - destruct tv as [nt|], bv as [nb|]; cbn [option_map]; [ | | |reflexivity].
    + change (cx (f nt)) with (X (cx nt)). change (cx (f nb)) with (X (cx nb)). rewrite (ax_cmp _ _ Hx). destruct (cx nt ?= cx nb); reflexivity.
    + change (cx (f nt)) with (X (cx nt)). cbn [mvt t_x]. rewrite (ax_eqb _ _ Hx). apply bind_same. intros _ _. eapply bind_map; [apply expect_map|]. reflexivity.
    + change (cx (f nb)) with (X (cx nb)). cbn [mvt t_x]. rewrite (ax_eqb _ _ Hx). apply bind_same. intros _ _. eapply bind_map; [apply expect_map|]. reflexivity.
  - intros [[[[nt nb] ord] nx]|] _; [|reflexivity]. cbn [option_map pos_st fst snd]. eapply bind_map; [apply expect_map|]. intros tp _. eapply bind_map; [apply expect_map|]. intros bt _. rewrite (ax_ltb _ _ Hx).
    change (cx (f nt)) with (X (cx nt)). change (cx (f nb)) with (X (cx nb)). destruct (qltb u nx).
    + eapply bind_map; [apply interpolate_st|]. intros yt _. eapply bind_map; [apply interpolate_st|]. reflexivity.
    + destruct ord; [reflexivity|eapply bind_map; [apply interpolate_st|]; reflexivity|eapply bind_map; [apply interpolate_st|]; reflexivity].
Qed.
Definition ast (x : scanner * option (option trapz)) : scanner * option (option trapz) := (mvsc (fst x), option_map (option_map mvz) (snd x)).
Lemma advance_next_st : forall s u, sc_advance_next (mvsc s) (X u) = rmap ast (sc_advance_next s u).
Proof.
  intros s u. unfold sc_advance_next. cbn [mvsc sc_curr mvt t_x]. rewrite (ax_ltb _ _ Hx). apply bind_same. intros _ _. eapply bind_map; [apply peek_st|]. intros [[ord n]|] _; [|reflexivity].
  cbn [option_map pst fst snd mvt t_x]. rewrite (ax_ltb _ _ Hx). destruct (qltb (t_x (sc_curr s)) (t_x n)); destruct ord as [[| |]|]; reflexivity.
Qed.
Definition ost (x : scanner * option trapz) : scanner * option trapz := (mvsc (fst x), option_map mvz (snd x)).
Definition lst (x : scanner * list trapz) : scanner * list trapz := (mvsc (fst x), map mvz (snd x)).
Lemma at_next_st : forall fuel s u, at_next fuel (mvsc s) (X u) = rmap ost (at_next fuel s u).
Proof.
  induction fuel as [|fuel IH]; intros s u; [reflexivity|]. cbn [at_next]. change (t_x (sc_curr (mvsc s))) with (X (t_x (sc_curr s))). rewrite (ax_ltb _ _ Hx). destruct (qltb _ _); [|reflexivity].
  eapply bind_map; [apply advance_next_st|]. intros [s' [[z|]|]] _; try reflexivity. apply IH.
Qed.
Lemma sc_advance_to_st : forall n fuel s u, sc_advance_to n fuel (mvsc s) (X u) = rmap lst (sc_advance_to n fuel s u).
Proof.
  induction n as [|n IH]; intros fuel s u; [reflexivity|]. cbn [sc_advance_to]. eapply bind_map; [apply at_next_st|]. intros [s' [z|]] _; [|reflexivity]. cbn [ost fst snd option_map]. eapply bind_map; [apply IH|]. intros [s2 zs] _. reflexivity.
Qed.
Lemma advance_to_st : forall s u, advance_to (mvsc s) (X u) = rmap lst (advance_to s u).
Proof. intros. unfold advance_to, scan_fuel. cbn [mvsc sc_poly moved_piece mp_top mp_bot]. rewrite !map_length. apply sc_advance_to_st. Qed.
Lemma scan_lines_st : forall m u, mp_scan_lines (moved_piece f m) (X u) = rmap mvsc (mp_scan_lines m u).
Proof. intros. unfold mp_scan_lines. eapply bind_map; [apply sc_new_st|]. intros s _. eapply bind_map; [apply advance_to_st|]. intros [s' zs] _. reflexivity. Qed.

(** ** Rows *)
Definition mext (e : ext) : ext := match e with Fin q => Fin (Y q) | _ => e end.
Lemma ext_leb_st : forall a b, ext_leb (mext a) (mext b) = ext_leb a b.
Proof. intros [|a|] [|b|]; cbn; auto. apply (ax_leb _ _ Hy). Qed.
Lemma emax_st : forall a b, emax (mext a) (mext b) = mext (emax a b). Proof. intros. unfold emax. rewrite ext_leb_st. destruct (ext_leb a b); reflexivity. Qed.
Lemma emin_st : forall a b, emin (mext a) (mext b) = mext (emin a b). Proof. intros. unfold emin. rewrite ext_leb_st. destruct (ext_leb a b); reflexivity. Qed.
Lemma finite_st : forall a, finite (mext a) = rmap Y (finite a). Proof. intros [|a|]; reflexivity. Qed.
Definition ust {A} (x : scanner * A) : scanner * A := (mvsc (fst x), snd x).
Lemma cross_ubounds_st : forall s r lo hi n, cross_ubounds (mvsc s) (X r) (Y lo) (Y hi) n = rmap ust (cross_ubounds s r lo hi n).
Proof.
  intros s r lo hi n. unfold cross_ubounds. eapply bind_map; [apply advance_to_st|]. intros [s' zs] _. cbn [lst fst snd].
  assert (F : forall zs ab, fold_left ubounds_step (map mvz zs) (mext (fst ab), mext (snd ab)) = (mext (fst (fold_left ubounds_step zs ab)), mext (snd (fold_left ubounds_step zs ab)))).
  { clear - Hx Hy. induction zs as [|z zs IH]; intros [a b]; [reflexivity|]. cbn [map fold_left fst snd]. rewrite <- IH. f_equal. unfold ubounds_step. cbn [fst snd mvz mvt z_left z_right t_top t_bot].
    change (Fin (Y (t_bot (z_left z)))) with (mext (Fin (t_bot (z_left z)))). change (Fin (Y (t_bot (z_right z)))) with (mext (Fin (t_bot (z_right z)))). change (Fin (Y (t_top (z_left z)))) with (mext (Fin (t_top (z_left z)))). change (Fin (Y (t_top (z_right z)))) with (mext (Fin (t_top (z_right z)))).
    rewrite !emin_st, !emax_st. reflexivity. }
  specialize (F zs (PosInf, NegInf)). cbn [mext fst snd] in F. rewrite F. destruct (fold_left ubounds_step zs (PosInf, NegInf)) as [bm tm]. cbn [fst snd].
  change (Fin (Y lo)) with (mext (Fin lo)). change (Fin (Y hi)) with (mext (Fin hi)). rewrite !ext_leb_st. destruct (_ || _ || _); [reflexivity|]. rewrite emax_st, emin_st, !finite_st.
  eapply bind_map; [reflexivity|]. intros b _. eapply bind_map; [reflexivity|]. intros t _. cbv zeta. rewrite !ax_sub, !(ratio_mul _ Hy). apply bind_same. intros j1 _. apply bind_same. reflexivity.
Qed.
Definition mb (b : bnds) : bnds := mkB (mext (b_top_max b)) (mext (b_top_min b)) (mext (b_bot_max b)) (mext (b_bot_min b)).
Definition bst (x : scanner * option (nat * nat * Qc * Qc)) : scanner * option (nat * nat * Qc * Qc) :=
  (mvsc (fst x), option_map (fun y => (fst (fst (fst y)), snd (fst (fst y)), Y (snd (fst y)), Y (snd y))) (snd x)).
Lemma cross_bounds_st : forall s r lo hi n, cross_bounds (mvsc s) (X r) (Y lo) (Y hi) n = rmap bst (cross_bounds s r lo hi n).
Proof.
  intros s r lo hi n. unfold cross_bounds. eapply bind_map; [apply advance_to_st|]. intros [s' zs] _. cbn [lst fst snd].
  assert (F : forall zs b, fold_left bounds_step (map mvz zs) (mb b) = mb (fold_left bounds_step zs b)).
  { clear - Hx Hy. induction zs as [|z zs IH]; intros b; [reflexivity|]. cbn [map fold_left]. rewrite <- IH. f_equal. unfold bounds_step, mb. cbv zeta. cbn [mvz mvt z_left z_right t_top t_bot b_top_max b_top_min b_bot_max b_bot_min].
    change (Fin (Y (t_bot (z_left z)))) with (mext (Fin (t_bot (z_left z)))). change (Fin (Y (t_bot (z_right z)))) with (mext (Fin (t_bot (z_right z)))). change (Fin (Y (t_top (z_left z)))) with (mext (Fin (t_top (z_left z)))). change (Fin (Y (t_top (z_right z)))) with (mext (Fin (t_top (z_right z)))).
    rewrite !emin_st, !emax_st. reflexivity. }
  specialize (F zs (mkB NegInf PosInf NegInf PosInf)). unfold mb at 1 in F. cbn [mext b_top_max b_top_min b_bot_max b_bot_min] in F. rewrite F. destruct (fold_left bounds_step zs _) as [tM tm bM bm]. cbv zeta. cbn [mb b_top_max b_top_min b_bot_max b_bot_min].
  change (Fin (Y lo)) with (mext (Fin lo)). change (Fin (Y hi)) with (mext (Fin hi)). rewrite !ext_leb_st. destruct (_ || _ || _); [reflexivity|]. rewrite emax_st, emin_st, !finite_st.
  eapply bind_map; [reflexivity|]. intros b _. eapply bind_map; [reflexivity|]. intros t _. rewrite !ax_sub, !(ratio_mul _ Hy). apply bind_same. intros j1 _. apply bind_same. intros j2 _. eapply bind_map; [reflexivity|]. intros u _. eapply bind_map; [reflexivity|]. reflexivity.
Qed.
Lemma area_st : forall z, trapz_area (mvz z) = rmap (fun a => sx * sy * a) (trapz_area z).
Proof.
  intros z. unfold trapz_area. cbv zeta. cbn [mvz mvt z_left z_right t_top t_bot t_x]. rewrite !ax_sub.
  assert (L : forall v, qleb 0 (sy * v) = qleb 0 v) by (intros v; rewrite <- (ax_leb sy 0 Hy 0 v); unfold ax; f_equal; ring). rewrite !L. apply bind_same. intros _ _. cbn [rmap]. f_equal. unfold Qcdiv. ring.
Qed.
End Scan.

(** ** Areas *)
Section Area.
Variables (sx ox sy oy : Qc).
Hypotheses (Hx : 0 < sx) (Hy : 0 < sy).
Notation X := (ax sx ox).
Notation Y := (ax sy oy).
Notation Tz := (mvz sx ox sy oy).
Notation Sc := (mvsc sx ox sy oy).
Notation k := (sx * sy).
Notation sca := (map (fun v => sx * sy * v)).
Lemma flip_st : forall z, flip (Tz z) = (map (stretch sy oy sx ox) (fst (flip z)), map (stretch sy oy sx ox) (snd (flip z))).
Proof.
  intros [[x1 t1 b1] [x2 t2 b2]]. unfold flip. cbn [mvz mvt z_left z_right t_top t_bot t_x]. rewrite !(ax_leb _ _ Hy), !(ax_ltb _ _ Hy).
  destruct (qleb b1 b2), (qltb b2 t2), (qltb b1 t1), (qleb t1 t2); reflexivity.
Qed.
Lemma add_at_st : forall arr j v, add_at (sca arr) j (k * v) = rmap sca (add_at arr j v).
Proof.
  induction arr as [|a arr IH]; intros [|j] v; try reflexivity.
  - cbn [map add_at rmap]. do 2 f_equal. ring.
  - cbn [map add_at]. eapply bind_map; [apply IH|]. reflexivity.
Qed.
Lemma fold_res_st : forall {A B A' B'} (g : A -> A') (h : B -> B') (F : A -> B -> res A) (F' : A' -> B' -> res A'),
  (forall a b, F' (g a) (h b) = rmap g (F a b)) -> forall l a, fold_res F' (g a) (map h l) = rmap g (fold_res F a l).
Proof. intros A B A' B' g h F F' E. induction l as [|b l IH]; intros a; [reflexivity|]. cbn [map fold_res]. eapply bind_map; [apply E|]. intros a' _. apply IH. Qed.
Lemma add_areas_st : forall tzs arr j, add_areas (sca arr) j (map (mvz sy oy sx ox) tzs) = rmap sca (add_areas arr j tzs).
Proof.
  intros. unfold add_areas. apply fold_res_st. intros a z. eapply bind_map; [apply area_st; auto|]. intros v _. cbv beta. replace (sy * sx * v) with (k * v) by ring. apply add_at_st.
Qed.
Lemma area_rows_st : forall lo h n sc arr j, area_rows (Y lo) (sy * h) (mvsc sy oy sx ox sc) (sca arr) j n = rmap sca (area_rows lo h sc arr j n).
Proof.
  intros lo h. induction n as [|n IH]; intros sc arr j; [reflexivity|]. cbn [area_rows]. cbv zeta.
  replace (of_nat (j + 1) * (sy * h) + Y lo) with (Y (of_nat (j + 1) * h + lo)) by (unfold ax; ring).
  eapply bind_map; [apply advance_to_st; auto|]. intros [sc' tzs] _. cbn [lst fst snd]. eapply bind_map; [apply add_areas_st|]. intros arr' _. apply IH.
Qed.
Lemma area_trapz_st : forall lo hi arr z, area_trapz (Y lo) (Y hi) (sca arr) (Tz z) = rmap sca (area_trapz lo hi arr z).
Proof.
  intros lo hi arr z. unfold area_trapz. cbv zeta. rewrite map_length, flip_st. destruct (flip z) as [tp bt]. cbn [fst snd].
  eapply bind_map; [apply mp_new_st; auto|]. intros m _. eapply bind_map; [apply scan_lines_st; auto|]. intros sc _. cbn [mvz mvt z_left z_right t_top t_bot].
  rewrite !(ax_min _ _ Hy), !(ax_max _ _ Hy), !(ax_leb _ _ Hy). destruct (_ || _); [reflexivity|]. rewrite !ax_sub.
  replace (sy * (hi - lo) / of_nat (List.length arr)) with (sy * ((hi - lo) / of_nat (List.length arr))) by (unfold Qcdiv; ring).
  rewrite !(ratio_div _ Hy). apply bind_same. intros j1 _. apply bind_same. intros j2 _. apply area_rows_st.
Qed.
Lemma cross_area_st : forall s r lo hi arr, cross_area (Sc s) (X r) (Y lo) (Y hi) (sca arr) = rmap (fun x => (Sc (fst x), sca (snd x))) (cross_area s r lo hi arr).
Proof.
  intros. unfold cross_area. eapply bind_map; [apply advance_to_st; auto|]. intros [s' zs] _. cbn [lst fst snd]. eapply bind_map; [apply (fold_res_st sca Tz); apply area_trapz_st|]. reflexivity.
Qed.
Lemma raster_cols_st : forall lo hi rs s arr, raster_cols (Y lo) (Y hi) (Sc s) (map X rs) (map sca arr) = rmap (map sca) (raster_cols lo hi s rs arr).
Proof.
  intros lo hi. induction rs as [|r rs IH]; intros s [|sl arr]; try reflexivity. cbn [map raster_cols]. eapply bind_map; [apply cross_area_st|]. intros [s' sl'] _. cbn [fst snd]. eapply bind_map; [apply IH|]. reflexivity.
Qed.
Lemma raster_pieces_st : forall ms l rs lo hi arr, raster_pieces (map (moved_piece (stretch sx ox sy oy)) ms) (X l) (map X rs) (Y lo) (Y hi) (map sca arr) = rmap (map sca) (raster_pieces ms l rs lo hi arr).
Proof.
  intros. unfold raster_pieces. apply fold_res_st. intros a m. eapply bind_map; [apply scan_lines_st; auto|]. intros s _. apply raster_cols_st.
Qed.
Lemma slice_cols_st : forall lo hi rs s arr, slice_cols (Y lo) (Y hi) (Sc s) (map X rs) (sca arr) = rmap sca (slice_cols lo hi s rs arr).
Proof.
  intros lo hi. induction rs as [|r rs IH]; intros s arr; [reflexivity|]. cbn [map slice_cols]. eapply bind_map; [apply cross_area_st|]. intros [s' arr'] _. cbn [fst snd]. apply IH.
Qed.
Lemma mark_cols_st : forall lo hi n rs s start arr, mark_cols (Y lo) (Y hi) n (Sc s) (map X rs) start arr = mark_cols lo hi n s rs start arr.
Proof.
  intros lo hi n. induction rs as [|r rs IH]; intros s start arr; [reflexivity|]. cbn [map mark_cols]. rewrite cross_ubounds_st by auto. destruct (cross_ubounds s r lo hi n) as [[s' [j1 j2]]|e|]; cbn [rmap bind ust fst snd]; auto.
  destruct (j2 <? j1)%nat; [apply IH|]. destruct (check _ _); cbn [bind]; auto. destruct (mark_rows _ _ _ _ _); cbn [bind]; auto.
Qed.
Definition mrect (r : rect) : rect := mkRect (stretch sx ox sy oy (r_min r)) (stretch sx ox sy oy (r_max r)).
Lemma grow_st : forall l r, fold_left grow (map (stretch sx ox sy oy) l) (mrect r) = mrect (fold_left grow l r).
Proof. induction l as [|c l IH]; intros r; [reflexivity|]. cbn [map fold_left]. rewrite <- IH. f_equal. unfold grow, mrect, stretch. cbn [r_min r_max cx cy]. rewrite !(ax_min _ _ Hx), !(ax_min _ _ Hy), !(ax_max _ _ Hx), !(ax_max _ _ Hy). reflexivity. Qed.
Lemma bounding_st : forall P, poly_bounding_rect (moved_polygon (stretch sx ox sy oy) P) = option_map mrect (poly_bounding_rect P).
Proof. intros P. unfold poly_bounding_rect, moved_polygon. cbn [pg_exterior]. destruct (pg_exterior P) as [|c l]; [reflexivity|]. cbn [map option_map]. f_equal. apply (grow_st l (mkRect c c)). Qed.
End Area.
Lemma swap_st : forall sx ox sy oy P, swap_poly (moved_polygon (stretch sx ox sy oy) P) = moved_polygon (stretch sy oy sx ox) (swap_poly P).
Proof.
  intros. unfold swap_poly, moved_polygon. cbn [pg_exterior pg_interiors]. rewrite !map_map. f_equal. apply map_ext. intros l. rewrite !map_map. reflexivity.
Qed.
