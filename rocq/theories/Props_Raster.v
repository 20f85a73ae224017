(** C39, C40: rows met by a scan, and areas per row. *)
Require Import List String Bool Arith Lia ZArith Lqa Psatz Sorted.
From Verif Require Import Base Scalar M_Events M_Geo S_Geo P_Geo M_MonoPoly S_Mono P_Mono Props_Mono M_Raster S_Raster P_Raster P_RasterArea.
Import ListNotations.
Local Open Scope list_scope.
Local Open Scope Qc_scope.

Lemma scan_zs : forall top bot m s u, mp_new top bot = Ok m -> above top bot -> scan_reach m s ->
  exists s' zs, advance_to s u = Ok (s', zs) /\ scan_reach m s' /\ upright zs /\ Forall z_ok zs.
Proof.
  intros top bot m s u E AB R. destruct (of_new _ _ _ E) as [Et [Eb MP]].
  pose proof MP as [p [q [_ [_ [Eq _]]]]]. rewrite Et in Eq.
  destruct (C36_scan_is_gap_free top bot m s u q E Eq R) as [s' [zs [A [R' [G [B _]]]]]].
  exists s', zs. split; auto. split; auto. rewrite <- Et, <- Eb in AB, B.
  assert (F : Forall z_ok zs).
  { clear A R' Eq. induction G as [|z a b l K1 K2 G IH]; [constructor|]. inversion B as [|? ? Hz Hl]; subst. constructor; auto.
    destruct (above_area m z AB Hz) as [_ [Z1 Z2]]. split; auto. }
  split; auto. unfold upright. first [apply Forall_forall; intros z Hz|intros z Hz]; rewrite Forall_forall in F; destruct (F z Hz) as [? [? ?]]; auto.
Qed.

(** C39: never a panic; the empty range exactly when the scanned part misses the
    band, and otherwise exactly the rows needed. *)
Theorem C39_cross_ubounds : forall top bot m s right lo hi n,
  mp_new top bot = Ok m -> above top bot -> scan_reach m s -> lo < hi -> (1 <= n)%nat ->
  exists s' zs, advance_to s right = Ok (s', zs) /\
    ((misses_band zs lo hi /\ cross_ubounds s right lo hi n = Ok (s', (n, 0%nat))) \/
     (~ misses_band zs lo hi /\ exists j k, cross_ubounds s right lo hi n = Ok (s', (j, k)) /\ rows_of zs lo hi n j k)).
Proof.
  intros top bot m s right lo hi n E AB R LH N.
  destruct (scan_zs top bot m s right E AB R) as [s' [zs [A [R' [U F]]]]].
  exists s', zs. split; auto. unfold cross_ubounds. rewrite A. cbn [bind].
  destruct (band_ok zs lo hi n U LH N) as [T K].
  destruct (fold_left ubounds_step zs (PosInf, NegInf)) as [b t] eqn:EB. unfold empty_test in T, K. cbn [fst snd] in T, K.
  destruct (ext_leb t b || ext_leb t (Fin lo) || ext_leb (Fin hi) b) eqn:TE.
  - left. split; auto. apply T. reflexivity.
  - right. split; [rewrite <- T; discriminate|]. destruct (K eq_refl) as [bm [tm [j [k [K1 [K2 [K3 [K4 K5]]]]]]]].
    rewrite K1. cbn [bind]. rewrite K2. cbn [bind]. rewrite K3. cbn [bind]. rewrite K4. cbn [bind]. eauto.
Qed.
(** [cross_bounds] also returns the highest point of the bottom sides and the
    lowest point of the top sides. *)
Theorem C39_cross_bounds : forall top bot m s right lo hi n,
  mp_new top bot = Ok m -> above top bot -> scan_reach m s -> lo < hi -> (1 <= n)%nat ->
  exists s' zs, advance_to s right = Ok (s', zs) /\
    ((misses_band zs lo hi /\ cross_bounds s right lo hi n = Ok (s', None)) \/
     (~ misses_band zs lo hi /\ exists j k bot_max top_min,
        cross_bounds s right lo hi n = Ok (s', Some (j, k, bot_max, top_min)) /\ rows_of zs lo hi n j k /\
        (forall z, In z zs -> t_bot (z_left z) <= bot_max /\ t_bot (z_right z) <= bot_max /\
                              top_min <= t_top (z_left z) /\ top_min <= t_top (z_right z)) /\
        (exists z, In z zs /\ (bot_max = t_bot (z_left z) \/ bot_max = t_bot (z_right z))) /\
        (exists z, In z zs /\ (top_min = t_top (z_left z) \/ top_min = t_top (z_right z))))).
Proof.
  intros top bot m s right lo hi n E AB R LH N.
  destruct (scan_zs top bot m s right E AB R) as [s' [zs [A [R' [U F]]]]].
  exists s', zs. split; auto. unfold cross_bounds. rewrite A. cbn [bind].
  destruct (band_ok zs lo hi n U LH N) as [T K].
  pose proof (fold_bb_proj zs (mkB NegInf PosInf NegInf PosInf)) as PJ. cbv zeta in PJ. cbn [b_bot_min b_top_max] in PJ.
  rewrite <- PJ in T, K. unfold empty_test in T, K. cbn [fst snd] in T, K. cbv zeta.
  set (b := fold_left bounds_step zs (mkB NegInf PosInf NegInf PosInf)) in *.
  destruct (ext_leb (b_top_max b) (b_bot_min b) || ext_leb (b_top_max b) (Fin lo) || ext_leb (Fin hi) (b_bot_min b)) eqn:TE.
  - left. split; auto. apply T. reflexivity.
  - right. assert (NM : ~ misses_band zs lo hi) by (rewrite <- T; discriminate). split; auto.
    destruct (K eq_refl) as [bm [tm [j [k [K1 [K2 [K3 [K4 K5]]]]]]]].
    destruct zs as [|z0 zs]. { exfalso. apply NM. left. intros p q [z [H _]]. contradiction. }
    assert (BI : exists bM tM, b_bot_max b = Fin bM /\ b_top_min b = Fin tM /\
      (forall z, In z (z0 :: zs) -> t_bot (z_left z) <= bM /\ t_bot (z_right z) <= bM /\ tM <= t_top (z_left z) /\ tM <= t_top (z_right z)) /\
      (exists z, In z (z0 :: zs) /\ (bM = t_bot (z_left z) \/ bM = t_bot (z_right z))) /\
      (exists z, In z (z0 :: zs) /\ (tM = t_top (z_left z) \/ tM = t_top (z_right z)))).
    { unfold b. cbn [fold_left].
      destruct (fold_inner zs (bounds_step (mkB NegInf PosInf NegInf PosInf) z0)
        (qmax (t_bot (z_left z0)) (t_bot (z_right z0))) (qmin (t_top (z_left z0)) (t_top (z_right z0)))) as [I1 I2].
      - cbn [bounds_step b_bot_max]. rewrite emax_neg, emax_fin. reflexivity.
      - cbn [bounds_step b_top_min]. rewrite emin_pos, emin_fin. reflexivity.
      - rewrite I1, I2. eexists. eexists. split; [reflexivity|]. split; [reflexivity|].
        pose proof (inner_spec zs (qmax (t_bot (z_left z0)) (t_bot (z_right z0))) (qmin (t_top (z_left z0)) (t_top (z_right z0)))) as IS. cbv zeta in IS.
        set (q := fold_left inner_step zs _) in *. clearbody q. destruct IS as [S1 [S2 [S3 [S4 S5]]]].
        split; [|split].
        + intros z [<-|H]; [|auto].
          destruct (qmax_cases (t_bot (z_left z0)) (t_bot (z_right z0))) as [[X1 X2]|[X1 X2]]; rewrite X2 in S1;
          (destruct (qmin_cases (t_top (z_left z0)) (t_top (z_right z0))) as [[Y1 Y2]|[Y1 Y2]]; rewrite Y2 in S2); repeat split; qcl.
        + destruct S4 as [->|[z [H1 H2]]]; [|exists z; split; [right|]; auto]. exists z0. split; [left; auto|].
          destruct (qmax_cases (t_bot (z_left z0)) (t_bot (z_right z0))) as [[X1 X2]|[X1 X2]]; auto.
        + destruct S5 as [->|[z [H1 H2]]]; [|exists z; split; [right|]; auto]. exists z0. split; [left; auto|].
          destruct (qmin_cases (t_top (z_left z0)) (t_top (z_right z0))) as [[X1 X2]|[X1 X2]]; auto. }
    destruct BI as [bM [tM [B1 [B2 B3]]]].
    rewrite K1. cbn [bind]. rewrite K2. cbn [bind]. rewrite K3. cbn [bind]. rewrite K4. cbn [bind]. rewrite B1, B2. cbn [finite bind].
    exists j, k, bM, tM. split; [reflexivity|]. split; auto.
Qed.

(** C40: never a panic, and every row receives the area of its part of the
    scanned trapezoids. *)
Theorem C40_cross_area_per_row : forall top bot m s right lo hi array,
  mp_new top bot = Ok m -> above top bot -> scan_reach m s -> lo < hi -> array <> [] ->
  exists s' zs array', advance_to s right = Ok (s', zs) /\
    cross_area s right lo hi array = Ok (s', array') /\ List.length array' = List.length array /\
    forall j, (j < List.length array)%nat ->
      nth j array' 0 = nth j array 0 +
        sum (fun z => area_between z (row lo hi (List.length array) j) (row lo hi (List.length array) (S j))) zs.
Proof.
  intros top bot m s right lo hi array E AB R LH NE.
  destruct (scan_zs top bot m s right E AB R) as [s' [zs [A [R' [U F]]]]].
  assert (N : (1 <= List.length array)%nat) by (destruct array; [congruence|simpl; lia]).
  destruct (fold_area_ok lo hi _ zs array LH N F eq_refl) as [arr' [E1 [L1 N1]]].
  exists s', zs, arr'. split; auto. split; auto. unfold cross_area. rewrite A. cbn [bind]. rewrite E1. reflexivity.
Qed.

Lemma sum_nth : forall (l : list Qc), sum (fun a => a) l = sum (fun k => nth k l 0) (seq 0 (List.length l)).
Proof.
  induction l as [|a l IH]; [reflexivity|]. cbn [List.length seq]. rewrite !sum_cons. simpl nth at 1. f_equal. rewrite IH, <- seq_shift.
  generalize (seq 0 (List.length l)). intros ks. induction ks as [|k ks IK]; [reflexivity|]. cbn [map]. rewrite !sum_cons, IK. reflexivity.
Qed.
Lemma sum_add : forall {A} (f g : A -> Qc) l, sum (fun a => f a + g a) l = sum f l + sum g l.
Proof. intros A f g l. induction l as [|a l IH]; [rewrite !sum_nil; ring|]. rewrite !sum_cons, IH. ring. Qed.
Lemma sum_ext : forall {A} (f g : A -> Qc) l, (forall a, In a l -> f a = g a) -> sum f l = sum g l.
Proof. intros A f g l H. induction l as [|a l IH]; [reflexivity|]. rewrite !sum_cons, IH, (H a); auto; [left; auto|]. intros; apply H; right; auto. Qed.
Lemma sum_swap : forall {A B} (f : A -> B -> Qc) l l', sum (fun a => sum (f a) l') l = sum (fun b => sum (fun a => f a b) l) l'.
Proof.
  intros A B f l l'. induction l as [|a l IH].
  - rewrite sum_nil. induction l' as [|b l' IH]; [reflexivity|]. change (0 = 0 + sum (fun b => sum (fun a => f a b) (@nil A)) l'). rewrite <- IH. ring.
  - rewrite sum_cons, IH, <- sum_add. apply sum_ext. intros b _. rewrite sum_cons. reflexivity.
Qed.
Lemma sum_tele : forall (F : nat -> Qc) n, sum (fun k => F (S k) - F k) (seq 0 n) = F n - F 0%nat.
Proof. intros F n. induction n as [|n IH]; [simpl; unfold sum; simpl; ring|]. rewrite seq_S, sum_app, IH, sum_cons, sum_nil. simpl Nat.add. ring. Qed.
(** In total: the area of the part within the band. When the band contains the
    scanned part, this is its whole area. *)
Theorem C40_cross_area_total : forall top bot m s right lo hi array,
  mp_new top bot = Ok m -> above top bot -> scan_reach m s -> lo < hi -> array <> [] ->
  exists s' zs array', advance_to s right = Ok (s', zs) /\
    cross_area s right lo hi array = Ok (s', array') /\
    sum (fun a => a) array' = sum (fun a => a) array + sum (fun z => area_between z lo hi) zs /\
    ((forall p, scanned zs p -> lo <= cy p /\ cy p <= hi) ->
     sum (fun a => a) array' = sum (fun a => a) array + sum trapezoid_area zs).
Proof.
  intros top bot m s right lo hi array E AB R LH NE.
  destruct (C40_cross_area_per_row top bot m s right lo hi array E AB R LH NE) as [s' [zs [array' [A [C [L H]]]]]].
  exists s', zs, array'. split; auto. split; auto.
  assert (N : (1 <= List.length array)%nat) by (destruct array; [congruence|simpl; lia]).
  assert (T : sum (fun a => a) array' = sum (fun a => a) array + sum (fun z => area_between z lo hi) zs).
  { rewrite !sum_nth, L.
    rewrite (sum_ext _ (fun k => nth k array 0 + sum (fun z => area_between z (row lo hi (List.length array) k) (row lo hi (List.length array) (S k))) zs)).
    2:{ intros k Hk. apply in_seq in Hk. apply H. lia. }
    rewrite sum_add. f_equal.
    rewrite (sum_swap (fun k z => area_between z (row lo hi (List.length array) k) (row lo hi (List.length array) (S k)))).
    apply sum_ext. intros z _. unfold area_between. rewrite (sum_tele (fun k => area_below z (row lo hi (List.length array) k))).
    rewrite row_0, (row_n lo hi _ N). reflexivity. }
  split; auto. intros B. rewrite T. f_equal. apply sum_ext. intros z Hz.
  destruct (scan_zs top bot m s right E AB R) as [s1 [zs1 [A1 [_ [U F]]]]]. rewrite A in A1. inversion A1; subst s1 zs1.
  rewrite Forall_forall in F. pose proof (F z Hz) as Zo. pose proof Zo as [_ [HL HR]]. unfold area_between.
  assert (SC : forall p, in_trapz z p -> lo <= cy p /\ cy p <= hi) by (intros p Hp; apply B; exists z; auto).
  destruct (SC _ (corner_lb z HL)), (SC _ (corner_lt z HL)), (SC _ (corner_rb z HR)), (SC _ (corner_rt z HR)). cbn [cy] in *.
  rewrite below_high, below_low; auto; [ring| |].
  - unfold z_min. destruct (qmin_cases (t_bot (z_left z)) (t_bot (z_right z))) as [[_ ->]|[_ ->]]; auto.
  - unfold z_max. destruct (qmax_cases (t_top (z_left z)) (t_top (z_right z))) as [[_ ->]|[_ ->]]; auto.
Qed.

(** ** The specification's area function is the usual one *)
(** Where the line does not change sign it is half the width times the sum of
    the heights, or nothing; where it changes sign, it splits there. *)
Theorem area_above_0_is_area : forall w u v,
  (0 <= u -> 0 <= v -> area_above_0 w u v = w * (u + v) / (1 + 1)) /\
  (u <= 0 -> v <= 0 -> area_above_0 w u v = 0) /\
  (u * v < 0 -> exists t, 0 < t /\ t < 1 /\ mix u v t = 0 /\
     area_above_0 w u v = area_above_0 (t * w) u 0 + area_above_0 ((1 - t) * w) 0 v).
Proof.
  intros w u v. split; [apply aa_pos|]. split; [apply aa_neg|]. intros S.
  assert (C : (u < 0 /\ 0 < v) \/ (0 < u /\ v < 0)).
  { destruct (qcmp_spec u 0) as [A|A|A]; [subst; exfalso; qc| |]; (destruct (qcmp_spec v 0) as [B|B|B]; [subst; exfalso; qc| |]); auto; exfalso; qc. }
  assert (D : u - v <> 0).
  { intros K. destruct C as [[? ?]|[? ?]]; qcl. }
  exists (u / (u - v)). assert (T : u / (u - v) * (u - v) = u) by (apply div_mul; auto).
  set (t := u / (u - v)) in *. clearbody t.
  split. { apply Qcnot_le_lt. intros K. destruct C as [[? ?]|[? ?]]; qc. }
  split. { apply Qcnot_le_lt. intros K. destruct C as [[? ?]|[? ?]]; qc. }
  assert (M : mix u v t = 0) by (unfold mix; clear - T; qcl). split; auto.
  destruct C as [[C1 C2]|[C1 C2]].
  - rewrite (aa_neg (t * w)) by (first [apply Qcle_refl|apply Qclt_le_weak; auto]).
    rewrite (aa_pos ((1 - t) * w)) by (first [apply Qcle_refl|apply Qclt_le_weak; auto]).
    unfold area_above_0. destruct (qcmp_spec u 0) as [A|A|A]; [exfalso; qcl| |exfalso; qcl].
    destruct (qcmp_spec v 0) as [B|B|B]; [exfalso; qcl|exfalso; qcl|].
    assert (D2 : (1 + 1) * (v - u) <> 0) by (apply pos_ne; qcl).
    apply (mul_cancel _ _ ((1 + 1) * (v - u)) D2). rewrite (div_mul _ _ D2).
    transitivity (((1 - t) * w * (0 + v) / (1 + 1) * (1 + 1)) * (v - u)); [|ring]. rewrite div_mul by discriminate.
    transitivity (w * v * (v - u + t * (u - v))); [rewrite T; ring|ring].
  - rewrite (aa_neg ((1 - t) * w)) by (first [apply Qcle_refl|apply Qclt_le_weak; auto]).
    rewrite (aa_pos (t * w)) by (first [apply Qcle_refl|apply Qclt_le_weak; auto]).
    unfold area_above_0. destruct (qcmp_spec u 0) as [A|A|A]; [exfalso; qcl|exfalso; qcl|].
    destruct (qcmp_spec v 0) as [B|B|B]; [exfalso; qcl| |exfalso; qcl].
    assert (D2 : (1 + 1) * (u - v) <> 0) by (apply pos_ne; qcl).
    apply (mul_cancel _ _ ((1 + 1) * (u - v)) D2). rewrite (div_mul _ _ D2).
    transitivity ((t * w * (u + 0) / (1 + 1) * (1 + 1)) * (u - v)); [|ring]. rewrite div_mul by discriminate.
    transitivity (w * u * (t * (u - v))); [rewrite T; ring|ring].
Qed.

(** ** The polygon of Props_Mono, on a grid of three rows that covers only part
    of it. *)
Example ex_raster :
  match sc_new (mkMono ex_top ex_bot) with
  | Ok s => (cross_ubounds s (z 2) (z 0) (z 6) 3, match cross_area s (z 2) (z 0) (z 6) [z 0; z 10; z 0] with Ok (_, a) => a | _ => [] end)
  | _ => (NoFuel, [])
  end = (cross_ubounds (mkScan (mkMono ex_top ex_bot) (mkTrip (z 0) (z 0) (z 0)) 0 0) (z 2) (z 0) (z 6) 3, [z 4; Q2Qc (23 # 2); z 0]).
Proof. vm_compute. reflexivity. Qed.
Example ex_raster_rows :
  match sc_new (mkMono ex_top ex_bot) with
  | Ok s => match cross_ubounds s (z 2) (z 0) (z 6) 3 with Ok (_, jk) => jk | _ => (9, 9)%nat end
  | _ => (8, 8)%nat
  end = (0, 1)%nat.
Proof. vm_compute. reflexivity. Qed.
