(** What the rasterization of the benchmarks marks. *)
Require Import List Bool Arith Lia Sorted Permutation ZArith QArith.
From Verif Require Import Base Scalar M_Events M_Geo M_Slab M_MonoPoly S_Geo P_Geo S_Mono P_Slab P_Mono Props_Mono S_Raster P_Raster P_RasterArea M_Raster Props_Raster M_Rings M_Op S_Rings S_Op M_MonoSweep M_Chains Props_Chains.
From Verif Require Import S_Chains P_MonoAbove P_MonoTotal Props_Decomp Props_Area S_Cells P_Cells M_RasterUse Props_Cells M_RasterBounds P_Columns Props_Bounds.
Import Datatypes.
Import ListNotations.
Local Open Scope list_scope.
Local Open Scope nat_scope.

(** The ranges that are not empty, in order; range number [k] of them covers [j]. *)
Definition full_range (b : nat * nat) : bool := fst b <=? snd b.
Definition covers (bs : list (nat * nat)) (k j : nat) : bool :=
  match nth_error (filter full_range bs) k with Some (a, b) => (a <=? j) && (j <=? b) | None => false end.

Lemma nth_set : forall l i x (b : bool), i < List.length l -> nth x (list_set i b l) false = if x =? i then b else nth x l false.
Proof.
  induction l as [|y l IH]; intros i x b L; [cbn in L; lia|]. destruct i as [|i], x as [|x]; cbn [list_set nth]; auto. rewrite IH by (cbn in L; lia). reflexivity.
Qed.
Lemma mark_rows_ok : forall start height n j arr, j + n <= height -> start + height <= List.length arr ->
  exists arr', mark_rows start height j n arr = Ok arr' /\ List.length arr' = List.length arr /\
    forall x, nth x arr' false = nth x arr false || ((start + j <=? x) && (x <? start + j + n)).
Proof.
  intros start height. induction n as [|n IH]; intros j arr L1 L2.
  - exists arr. split; auto. split; auto. intros x. rewrite Nat.add_0_r. destruct (Nat.leb_spec (start + j) x), (Nat.ltb_spec x (start + j)); try lia; cbn; rewrite orb_false_r; auto.
  - cbn [mark_rows]. assert (J : (j <? height) = true) by (apply Nat.ltb_lt; lia). rewrite J. cbn [check bind].
    destruct (IH (S j) (list_set (start + j) true arr)) as (arr' & E & Le & V); [lia|rewrite list_set_length; auto|]. exists arr'. split; auto. split; [rewrite Le; apply list_set_length|].
    intros x. rewrite V, nth_set by lia. destruct (Nat.eqb_spec x (start + j)) as [->|Ne].
    + assert (A : (start + j <=? start + j) = true) by (apply Nat.leb_le; auto). assert (B : (start + j <? start + j + S n) = true) by (apply Nat.ltb_lt; lia). rewrite A, B. cbn. rewrite orb_true_r. reflexivity.
    + f_equal. destruct (Nat.leb_spec (start + S j) x), (Nat.ltb_spec x (start + S j + n)), (Nat.leb_spec (start + j) x), (Nat.ltb_spec x (start + j + S n)); try lia; reflexivity.
Qed.
Lemma mark_cols_ok : forall lo hi h rights s bs start arr, ubounds_cols lo hi h s rights = Ok bs -> (forall b, In b bs -> full_range b = true -> snd b < h) ->
  start + h * List.length (filter full_range bs) <= List.length arr ->
  exists arr', mark_cols lo hi h s rights start arr = Ok arr' /\ List.length arr' = List.length arr /\
    (forall x, x < start -> nth x arr' false = nth x arr false) /\
    (forall k j, j < h -> nth (start + k * h + j) arr' false = nth (start + k * h + j) arr false || covers bs k j).
Proof.
  intros lo hi h. induction rights as [|u rights IH]; intros s bs start arr E H L.
  - cbn in E. injection E as <-. exists arr. split; auto. split; auto. split; auto. intros k j J. unfold covers. cbn [filter]. destruct k; cbn; rewrite orb_false_r; auto.
  - cbn [ubounds_cols] in E. cbn [mark_cols]. destruct (cross_ubounds s u lo hi h) as [[s' [a b]]| |]; try discriminate. cbn [bind] in *. destruct (ubounds_cols lo hi h s' rights) as [bs'| |] eqn:E'; try discriminate. cbn [bind] in E. injection E as <-.
    assert (Fr : full_range (a, b) = negb (b <? a)) by (unfold full_range; cbn [fst snd]; rewrite Nat.ltb_antisym, negb_involutive; reflexivity).
    destruct (b <? a) eqn:Q.
    + cbn [negb] in Fr. cbn [filter] in L. rewrite Fr in L. destruct (IH s' bs' start arr E') as (arr' & A1 & A2 & A3 & A4); auto; [intros; apply H; auto; right; auto|]. exists arr'. split; auto. split; auto. split; auto. intros k j J. rewrite A4 by auto. unfold covers. cbn [filter]. rewrite Fr. reflexivity.
    + cbn [negb] in Fr. cbn [filter] in L. rewrite Fr in L. cbn [List.length] in L. pose proof (H _ (or_introl eq_refl) Fr) as Hb. cbn [snd] in Hb. unfold full_range in Fr. cbn [fst snd] in Fr. pose proof Fr as Fr'. apply Nat.leb_le in Fr'.
      assert (C : (start + h <=? List.length arr) = true) by (apply Nat.leb_le; lia). rewrite C. cbn [check bind].
      destruct (mark_rows_ok start h (S b - a) a arr) as (arr1 & M1 & M2 & M3); [lia|lia|]. rewrite M1. cbn [bind].
      destruct (IH s' bs' (start + h) arr1 E') as (arr' & A1 & A2 & A3 & A4); [intros; apply H; auto; right; auto|lia|]. exists arr'. split; auto. split; [lia|]. split.
      * intros x X. rewrite A3, M3 by lia. destruct (Nat.leb_spec (start + a) x); [lia|]. cbn. apply orb_false_r.
      * intros [|k] j J; unfold covers; cbn [filter]; unfold full_range at 1; cbn [fst snd]; rewrite Fr; cbn [nth_error].
        -- rewrite A3, M3 by lia. f_equal. rewrite Nat.mul_0_l, Nat.add_0_r. destruct (Nat.leb_spec (start + a) (start + j)), (Nat.ltb_spec (start + j) (start + a + (S b - a))), (Nat.leb_spec a j), (Nat.leb_spec j b); try lia; reflexivity.
        -- replace (start + S k * h + j) with (start + h + k * h + j) by lia. rewrite A4, M3 by auto. destruct (Nat.ltb_spec (start + h + k * h + j) (start + a + (S b - a))); [lia|]. rewrite andb_false_r, orb_false_r. reflexivity.
Qed.
Lemma filter_le : forall {X} (f : X -> bool) l, List.length (filter f l) <= List.length l.
Proof. induction l as [|x l IH]; cbn; auto. destruct (f x); cbn; lia. Qed.
(** ** C72 *)
(** The rasterization of the benchmarks never panics on a polygon whose mirror image is
    valid, and returns an array of the right size.  Entry [(k, j)] is set exactly if, for
    some piece, the range number [k] among its ranges that are not empty, for the columns
    up to the stops [0], ..., [height - 1], contains [j]. *)
Theorem C72_what_is_marked : forall presort pick P width height r ms, (forall l, Permutation (presort l) l) -> valid_polygon (swap_poly P) -> 0 < width ->
  poly_bounding_rect (swap_poly P) = Some r -> monotone_chains presort pick (swap_poly P) = Ok ms ->
  exists arr bss, our_rasterize presort pick P width height = Ok arr /\ List.length arr = height * width /\
    Forall2 (fun m bs => piece_ubounds (cy (r_min r)) (cy (r_max r)) width (cx (r_min r)) (map (row (cx (r_min r)) (cx (r_max r)) height) (seq 0 height)) m = Ok bs) ms bss /\
    forall k j, j < width -> nth (k * width + j) arr false = existsb (fun bs => covers bs k j) bss.
Proof.
  intros presort pick P width height r ms Ps VP W E Em. destruct (bounds_some _ VP) as (r' & E' & LX & LY). rewrite E in E'. injection E' as <-.
  unfold our_rasterize. rewrite E. cbn [expect bind]. rewrite Em. cbn [bind].
  set (left := cx (r_min r)) in *. set (right_ := cx (r_max r)) in *. set (lo := cy (r_min r)) in *. set (hi := cy (r_max r)) in *.
  assert (Q : map (fun i => left + (right_ - left) / of_nat height * of_nat i)%Qc (seq 0 height) = map (row left right_ height) (seq 0 height)).
  { apply map_ext. intros i. rewrite Qcmult_comm. reflexivity. }
  rewrite Q. clear Q. set (stops := map (row left right_ height) (seq 0 height)).
  assert (So : StronglySorted Qcle (left :: stops)).
  { unfold stops. destruct height as [|h]; [cbn; constructor; constructor|]. constructor; [apply stops_sorted; auto; lia|]. apply Forall_forall. intros x I. apply in_map_iff in I as (k & <- & _). rewrite <- (row_0 left right_ (S h)) at 1 by (auto; lia). apply row_le; auto; lia. }
  assert (Hm : forall m, In m ms -> exists s bs, mp_scan_lines m left = Ok s /\ ubounds_cols lo hi width s stops = Ok bs /\ List.length bs = height /\ (forall b, In b bs -> full_range b = true -> snd b < width)).
  { intros m I. pose proof (C41_pieces_are_monotone _ _ _ _ Em m I) as MP. pose proof (C63_top_over_bottom _ _ _ _ Ps VP Em m I) as A.
    destruct (piece_ubounds_ok m lo hi width left stops MP A LY W So) as (bs & B1 & B2 & B3). unfold piece_ubounds in B1. destruct (mp_scan_lines m left) as [s| |]; try discriminate. cbn [bind] in B1. exists s, bs.
    assert (Ls : List.length stops = height) by (unfold stops; rewrite map_length, seq_length; auto).
    split; auto. split; auto. split; [lia|]. intros b Ib Fb. apply (In_nth _ _ (width, 0)) in Ib as (i & Hi & Nb). rewrite B2 in Hi. destruct (B3 i Hi) as (p & q & zs & _ & _ & _ & _ & H). rewrite Nb in H.
    destruct H as [[_ ->]|[_ (_ & H & _)]]; auto. }
  clear E Em VP.
  assert (G : forall arr, List.length arr = height * width -> exists arr' bss, fold_res (fun arr m => let* s := mp_scan_lines m left in mark_cols lo hi width s stops 0 arr) arr ms = Ok arr' /\ List.length arr' = height * width /\
    Forall2 (fun m bs => piece_ubounds lo hi width left stops m = Ok bs) ms bss /\ forall k j, j < width -> nth (k * width + j) arr' false = nth (k * width + j) arr false || existsb (fun bs => covers bs k j) bss).
  { induction ms as [|m ms IH]; intros arr La; [exists arr, []; split; auto; split; auto; split; [constructor|]; intros; cbn; rewrite orb_false_r; auto|].
    destruct (Hm m (or_introl eq_refl)) as (s & bs & H1 & H2 & H3 & H4). pose proof (filter_le full_range bs) as Fl.
    destruct (mark_cols_ok lo hi width stops s bs 0 arr H2 H4) as (arr1 & A1 & A2 & _ & A4); [rewrite La, <- H3, (Nat.mul_comm width); apply Nat.mul_le_mono_r; auto|].
    destruct (IH (fun m' I => Hm m' (or_intror I)) arr1) as (arr' & bss & B1 & B2 & B3 & B4); [lia|]. exists arr', (bs :: bss). cbn [fold_res]. rewrite H1. cbn [bind]. rewrite A1. cbn [bind]. split; auto. split; auto.
    split; [constructor; auto; unfold piece_ubounds; rewrite H1; cbn [bind]; auto|]. intros k j J. rewrite B4 by auto. cbn [existsb]. specialize (A4 k j J). cbn [Nat.add] in A4. rewrite A4, orb_assoc. reflexivity. }
  destruct (G (repeat false (height * width))) as (arr & bss & G1 & G2 & G3 & G4); [apply repeat_length|]. exists arr, bss. split; auto. split; auto. split; auto. intros k j J. rewrite G4 by auto. rewrite nth_repeat. reflexivity.
Qed.
(** So the array is not the raster of the polygon: a cell that belongs to the polygon
    entirely is not set, because the last column is not asked for; and a cell outside is
    set, because columns in which a piece has no points do not count. *)
Lemma ray_left_of : forall x y (a b : pt), (x < cx a -> x < cx b -> ray_crosses (mkC x y) (a, b) = false)%Qc.
Proof.
  intros x y a b A B. unfold ray_crosses. cbn [cx]. destruct (qleb (cx a) x) eqn:Q; [apply qleb_iff in Q; exfalso; qcl|]. destruct (qleb (cx b) x) eqn:Q'; [apply qleb_iff in Q'; exfalso; qcl|]. reflexivity.
Qed.
Lemma ray_right_of : forall x y (a b : pt), (cx a <= x -> cx b <= x -> ray_crosses (mkC x y) (a, b) = false)%Qc.
Proof.
  intros x y a b A B. unfold ray_crosses. cbn [cx]. destruct (qltb x (cx a)) eqn:Q; [apply qltb_iff in Q; exfalso; qcl|]. destruct (qltb x (cx b)) eqn:Q'; [apply qltb_iff in Q'; exfalso; qcl|]. rewrite !andb_false_r. reflexivity.
Qed.
Lemma whole_le : forall a b, (a <= b)%Z -> (whole a <= whole b)%Qc.
Proof. intros a b L. change (Qred (a # 1) <= Qred (b # 1))%Q. rewrite !Qred_correct. unfold Qle. cbn. lia. Qed.
Lemma whole_lt : forall a b, (a < b)%Z -> (whole a < whole b)%Qc.
Proof. intros a b L. change (Qred (a # 1) < Qred (b # 1))%Q. rewrite !Qred_correct. unfold Qlt. cbn. lia. Qed.
(** A horizontal edge over or under a point. *)
Lemma ray_flat : forall x y (a b : pt), (cy a = cy b -> (cx a <= x /\ x < cx b) \/ (cx b <= x /\ x < cx a) -> cy a <> y -> ray_crosses (mkC x y) (a, b) = qltb (cy a) y)%Qc.
Proof.
  intros x y a b F H N. unfold ray_crosses, cross. cbn [cx cy]. destruct H as [[H1 H2]|[H1 H2]]; pose proof H1 as G1; pose proof H2 as G2; apply qleb_iff in G1; apply qltb_iff in G2.
  - rewrite G1, G2. cbn [andb]. rewrite <- F. destruct (qltb_case (cy a) y) as [[K ->]|[K ->]]; [apply qltb_iff|apply not_true_iff_false; rewrite qltb_iff; apply Qcle_not_lt]; clear - H1 H2 K; qc.
  - destruct (qleb (cx a) x) eqn:Q; [apply qleb_iff in Q; exfalso; qcl|]. rewrite G1, G2. cbn [andb]. rewrite F. rewrite F in N. destruct (qltb_case (cy b) y) as [[K ->]|[K ->]]; [apply qltb_iff|apply not_true_iff_false; rewrite qltb_iff; apply Qcle_not_lt]; clear - H1 H2 K; qc.
Qed.
Theorem C72_full_cell_refuted : exists P width height r i j arr, valid_polygon (swap_poly P) /\ poly_bounding_rect (swap_poly P) = Some r /\ i < height /\ j < width /\
  our_rasterize (fun l => l) (fun _ _ _ => 0) P width height = Ok arr /\ nth (i * width + j) arr false = false /\
  let column := row (cx (r_min r)) (cx (r_max r)) height in
  let line := row (cy (r_min r)) (cy (r_max r)) width in
  forall q, in_cell (column i) (column (S i)) (line j) (line (S j)) q -> inside [swap_poly P] q = true.
Proof.
  exists (swap_poly arms), 4, 4, (mkRect (at_ 0 0) (at_ 8 8)), 3, 0. eexists. split; [exact arms_valid|]. split; [vm_compute; reflexivity|]. split; [lia|]. split; [lia|]. split; [vm_compute; reflexivity|]. split; [vm_compute; reflexivity|].
  cbv zeta. intros [x y] (H1 & H2 & H3 & H4). cbn [cx cy] in *.
  assert (K1 : (whole 6 < x)%Qc) by exact H1. assert (K2 : (x < whole 8)%Qc) by exact H2. assert (K3 : (whole 0 < y)%Qc) by exact H3. assert (K4 : (y < whole 2)%Qc) by exact H4. clear H1 H2 H3 H4.
  change (swap_poly (swap_poly arms)) with arms. unfold inside, all_edges. cbn [arms flat_map rings_in pg_exterior pg_interiors edges combine tl app map].
  assert (L : forall c, (c <=? 6)%Z = true -> (whole c <= x)%Qc) by (intros c C; apply Qcle_trans with (whole 6); [|apply Qclt_le_weak; auto]; apply Z.leb_le in C; apply whole_le; auto).
  rewrite (ray_flat x y (at_ 0 0) (at_ 8 0)), (ray_left_of x y (at_ 8 0) (at_ 8 8)), (ray_flat x y (at_ 8 8) (at_ 4 8)), (ray_right_of x y (at_ 4 8) (at_ 4 6)), (ray_right_of x y (at_ 4 6) (at_ 6 6)), (ray_right_of x y (at_ 6 6) (at_ 6 2)), (ray_right_of x y (at_ 6 2) (at_ 0 2)), (ray_right_of x y (at_ 0 2) (at_ 0 0)); auto; try (apply L; reflexivity); try reflexivity.
  - change (cy (at_ 0 0)) with (whole 0). change (cy (at_ 8 8)) with (whole 8). rewrite (proj2 (qltb_iff (whole 0) y) K3).
    assert (Q : qltb (whole 8) y = false) by (apply not_true_iff_false; rewrite qltb_iff; apply Qcle_not_lt, Qclt_le_weak, Qclt_trans with (whole 2); [auto|apply whole_lt; reflexivity]). rewrite Q. reflexivity.
  - right. split; [apply (L 4%Z); reflexivity|exact K2].
  - intros Q. change (whole 8 = y) in Q. rewrite <- Q in K4. revert K4. apply Qcle_not_lt. apply whole_le. discriminate.
  - left. split; [apply (L 0%Z); reflexivity|exact K2].
  - intros Q. change (whole 0 = y) in Q. rewrite <- Q in K3. exact (Qclt_not_eq _ _ K3 eq_refl).
Qed.
Theorem C72_empty_cell_refuted : exists P width height r i j arr, valid_polygon (swap_poly P) /\ poly_bounding_rect (swap_poly P) = Some r /\ i < height /\ j < width /\
  our_rasterize (fun l => l) (fun _ _ _ => 0) P width height = Ok arr /\ nth (i * width + j) arr false = true /\
  let column := row (cx (r_min r)) (cx (r_max r)) height in
  let line := row (cy (r_min r)) (cy (r_max r)) width in
  forall q, in_cell (column i) (column (S i)) (line j) (line (S j)) q -> inside [swap_poly P] q = false.
Proof.
  exists (swap_poly arms), 4, 4, (mkRect (at_ 0 0) (at_ 8 8)), 0, 3. eexists. split; [exact arms_valid|]. split; [vm_compute; reflexivity|]. split; [lia|]. split; [lia|]. split; [vm_compute; reflexivity|]. split; [vm_compute; reflexivity|].
  cbv zeta. intros [x y] (H1 & H2 & H3 & H4). cbn [cx cy] in *.
  assert (K1 : (whole 0 < x)%Qc) by exact H1. assert (K2 : (x < whole 2)%Qc) by exact H2. assert (K3 : (whole 6 < y)%Qc) by exact H3. assert (K4 : (y < whole 8)%Qc) by exact H4. clear H1 H2 H3 H4.
  change (swap_poly (swap_poly arms)) with arms. unfold inside, all_edges. cbn [arms flat_map rings_in pg_exterior pg_interiors edges combine tl app map].
  assert (L : forall c, (2 <=? c)%Z = true -> (x < whole c)%Qc) by (intros c C; apply Qclt_le_trans with (whole 2); [auto|]; apply Z.leb_le in C; apply whole_le; auto).
  assert (Y : forall c, (c <=? 6)%Z = true -> (whole c < y)%Qc) by (intros c C; apply Qcle_lt_trans with (whole 6); [|auto]; apply Z.leb_le in C; apply whole_le; auto).
  assert (N : forall c, (c <=? 6)%Z = true -> (whole c <> y)%Qc) by (intros c C; apply Qclt_not_eq, Y; auto).
  rewrite (ray_flat x y (at_ 0 0) (at_ 8 0)), (ray_left_of x y (at_ 8 0) (at_ 8 8)), (ray_left_of x y (at_ 8 8) (at_ 4 8)), (ray_left_of x y (at_ 4 8) (at_ 4 6)), (ray_left_of x y (at_ 4 6) (at_ 6 6)), (ray_left_of x y (at_ 6 6) (at_ 6 2)), (ray_flat x y (at_ 6 2) (at_ 0 2)), (ray_right_of x y (at_ 0 2) (at_ 0 0)); auto; try (apply L; reflexivity); try reflexivity; try (apply N; reflexivity); try (apply Qclt_le_weak; exact K1).
  - change (cy (at_ 0 0)) with (whole 0). change (cy (at_ 6 2)) with (whole 2). rewrite (proj2 (qltb_iff (whole 0) y) (Y 0%Z eq_refl)), (proj2 (qltb_iff (whole 2) y) (Y 2%Z eq_refl)). reflexivity.
  - right. split; [apply Qclt_le_weak; exact K1|apply (L 6%Z); reflexivity].
  - left. split; [apply Qclt_le_weak; exact K1|apply (L 8%Z); reflexivity].
Qed.
Example C72_example : our_rasterize (fun l => l) (fun _ _ _ => 0) (swap_poly arms) 4 4 = Ok
  [true; true; false; true;
   true; true; false; false;
   true; true; false; false;
   false; false; false; false].
Proof. vm_compute. reflexivity. Qed.
