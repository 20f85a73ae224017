(** The nearest end of two lines. *)
Require Import List Bool ZArith.
From Verif Require Import Base Scalar M_Events M_Geo S_Geo S_Sweep S_F64 P_Geo.
Import ListNotations.
Local Open Scope Qc_scope.

Lemma mul_nn : forall a b, 0 <= a -> 0 <= b -> 0 <= a * b. Proof. intros a b A B. qc. Qed.
Lemma sqr_nn : forall a, 0 <= a * a. Proof. intros a. qc. Qed.
Lemma dif_nn : forall a b, a <= b -> 0 <= b - a. Proof. intros a b A. qcl. Qed.
(** The point of [l] nearest to [e]. *)
Definition foot (e : pt) (l : line) : pt :=
  let a := l_start l in let z := l_end l in
  let dx := cx z - cx a in let dy := cy z - cy a in
  let q := dx * dx + dy * dy in let r := (cx e - cx a) * dx + (cy e - cy a) * dy in
  if qleb r 0 then a else if qleb q r then z else mkC (cx a + r / q * dx) (cy a + r / q * dy).
Lemma foot_on : forall e l, on_line l (foot e l).
Proof.
  intros e [a z]. unfold on_line, foot. cbn [l_start l_end]. cbv zeta.
  set (dx := cx z - cx a). set (dy := cy z - cy a). set (q := dx * dx + dy * dy). set (r := (cx e - cx a) * dx + (cy e - cy a) * dy).
  destruct (qleb r 0) eqn:R; [exists 0; split; [qcl|split; [qcl|split; ring]]|]. destruct (qleb q r) eqn:Q; [exists 1; split; [qcl|split; [qcl|split; ring]]|].
  assert (R' : 0 < r). { apply Qcnot_le_lt. intros K. apply qleb_iff in K. congruence. } assert (Q' : r < q). { apply Qcnot_le_lt. intros K. apply qleb_iff in K. congruence. }
  assert (N : q <> 0) by (intros E; rewrite E in Q'; qcl). exists (r / q).
  assert (E : r / q * q = r) by (field; exact N). split; [|split; [|split; reflexivity]]; set (t := r / q) in *; clearbody t; clearbody q r; clear - E R' Q'; qc.
Qed.
Lemma foot_least : forall e l x, on_line l x -> sq_dist e (foot e l) <= sq_dist e x.
Proof.
  intros e [a z] x (t & T0 & T1 & X & Y). unfold on_line, foot, sq_dist in *. cbn [l_start l_end] in *. cbv zeta. rewrite X, Y. clear X Y x.
  set (dx := cx z - cx a). set (dy := cy z - cy a). set (q := dx * dx + dy * dy). set (r := (cx e - cx a) * dx + (cy e - cy a) * dy).
  assert (P : forall s, (cx e - (cx a + s * dx)) * (cx e - (cx a + s * dx)) + (cy e - (cy a + s * dy)) * (cy e - (cy a + s * dy)) =
    ((cx e - cx a) * (cx e - cx a) + (cy e - cy a) * (cy e - cy a)) + s * (s * q - (1 + 1) * r)) by (intros s; unfold q, r; ring).
  assert (Q0 : 0 <= q) by (unfold q; generalize dx dy; clear; intros; qc).
  rewrite P. destruct (qleb r 0) eqn:R.
  { apply qleb_iff in R. clearbody q r. clear P. assert (K : 0 <= t * (t * q - (1 + 1) * r)) by (clear - T0 Q0 R; assert (0 <= t * t * q) by (assert (0 <= t * t) by qc; qc); qc). clear - K. qcl. }
  destruct (qleb q r) eqn:Q.
  { apply qleb_iff in Q. replace (cx z) with (cx a + 1 * dx) by (unfold dx; ring). replace (cy z) with (cy a + 1 * dy) by (unfold dy; ring). rewrite P. clearbody q r. clear P R.
    assert (K : 1 * (1 * q - (1 + 1) * r) <= t * (t * q - (1 + 1) * r)).
    { assert (K1 : 0 <= (1 - t) * (r - q)) by (apply mul_nn; apply dif_nn; auto). pose proof (sqr_nn (1 - t)) as K2. assert (K3 : 0 <= (1 - t) * (1 - t) * q) by (apply mul_nn; auto). clear - K1 K3. qc. }
    clear - K. qcl. }
  cbn [cx cy]. rewrite P. assert (R' : 0 < r). { apply Qcnot_le_lt. intros K. apply qleb_iff in K. congruence. } assert (Q' : r < q). { apply Qcnot_le_lt. intros K. apply qleb_iff in K. congruence. }
  assert (N : q <> 0) by (intros E; rewrite E in Q'; qcl). assert (E : r / q * q = r) by (field; exact N). set (s := r / q) in *. clearbody s. clearbody q r. clear P R Q.
  assert (K : s * (s * q - (1 + 1) * r) <= t * (t * q - (1 + 1) * r)).
  { pose proof (sqr_nn (t - s)) as K2. assert (K3 : 0 <= (t - s) * (t - s) * q) by (apply mul_nn; auto). rewrite <- E. clear - K3. qc. }
  clear - K. qcl.
Qed.
Definition closer (a b : pt * line) : pt * line := if qleb (sq_dist (fst a) (foot (fst a) (snd a))) (sq_dist (fst b) (foot (fst b) (snd b))) then a else b.
(** The nearest end, exactly. *)
Definition nearest_pair (p q : line) : pt * line := closer (closer (l_start p, q) (l_end p, q)) (closer (l_start q, p) (l_end q, p)).
Definition nearest_end (p q : line) : pt := fst (nearest_pair p q).
Lemma closer_spec : forall a b, (closer a b = a \/ closer a b = b) /\
  let d x := sq_dist (fst x) (foot (fst x) (snd x)) in d (closer a b) <= d a /\ d (closer a b) <= d b.
Proof.
  intros a b. unfold closer. destruct (qleb _ _) eqn:E; split; auto; cbv zeta.
  - apply qleb_iff in E. split; [apply Qcle_refl|exact E].
  - split; [|apply Qcle_refl]. apply Qclt_le_weak, Qcnot_le_lt. intros K. apply qleb_iff in K. congruence.
Qed.
Lemma nearest_end_ok : nearly_nearest nearest_end.
Proof.
  intros p q. unfold nearest_end, nearest_pair.
  destruct (closer_spec (l_start p, q) (l_end p, q)) as [A [A1 A2]]. destruct (closer_spec (l_start q, p) (l_end q, p)) as [B [B1 B2]].
  remember (closer (l_start p, q) (l_end p, q)) as u eqn:Eu. clear Eu. remember (closer (l_start q, p) (l_end q, p)) as v eqn:Ev. clear Ev.
  destruct (closer_spec u v) as [D [D1 D2]]. remember (closer u v) as w eqn:Ew. clear Ew. exists (snd w). split.
  - unfold end_and_other, is_end_of. destruct D as [->| ->]; [destruct A as [->| ->]|destruct B as [->| ->]]; cbn [fst snd]; auto.
  - intros e l' x I O. exists (foot (fst w) (snd w)). split; [apply foot_on|].
    apply Qcle_trans with (sq_dist e x).
    2: { assert (H : 0 <= sq_dist e x) by (unfold sq_dist; pose proof (sqr_nn (cx e - cx x)) as H1; pose proof (sqr_nn (cy e - cy x)) as H2; clear - H1 H2; qcl). revert H. generalize (sq_dist e x). clear. intros z H. qcl. }
    apply Qcle_trans with (sq_dist e (foot e l')); [|apply foot_least; exact O].
    cbn [fst snd] in *. destruct I as [[[-> | ->] ->]|[[-> | ->] ->]].
    + exact (Qcle_trans _ _ _ D1 A1).
    + exact (Qcle_trans _ _ _ D1 A2).
    + exact (Qcle_trans _ _ _ D2 B1).
    + exact (Qcle_trans _ _ _ D2 B2).
Qed.

(** ** Bounds for distances *)
Lemma beyond : forall a b r y, 0 <= (cx a - cx r) * (cx b - cx a) + (cy a - cy r) * (cy b - cy a) -> on_seg a b y -> sq_dist r a <= sq_dist r y.
Proof.
  intros a b r y H (t & T0 & T1 & X & Y). unfold sq_dist. rewrite X, Y. clear X Y y.
  set (dx := cx b - cx a) in *. set (dy := cy b - cy a) in *. set (u := cx a - cx r) in *. set (v := cy a - cy r) in *.
  replace (cx r - cx a) with (- u) by (unfold u; ring). replace (cy r - cy a) with (- v) by (unfold v; ring).
  replace (cx r - (cx a + t * dx)) with (- u - t * dx) by (unfold u; ring). replace (cy r - (cy a + t * dy)) with (- v - t * dy) by (unfold v; ring).
  clearbody dx dy u v. assert (K : 0 <= t * (u * dx + v * dy)) by (apply mul_nn; auto). assert (K1 : 0 <= (t * dx) * (t * dx)) by apply sqr_nn. assert (K2 : 0 <= (t * dy) * (t * dy)) by apply sqr_nn.
  clear - K K1 K2. qc.
Qed.
Lemma across : forall a b r y, on_seg a b y -> cross a b r * cross a b r <= sq_dist r y * sq_dist a b.
Proof.
  intros a b r y (t & T0 & T1 & X & Y). unfold sq_dist, cross.
  set (dx := cx b - cx a) in *. set (dy := cy b - cy a) in *.
  replace (cx a - cx b) with (- dx) by (unfold dx; ring). replace (cy a - cy b) with (- dy) by (unfold dy; ring).
  set (u := cx r - cx y). set (v := cy r - cy y).
  replace (dx * (cy r - cy a) - dy * (cx r - cx a)) with (dx * v - dy * u) by (unfold u, v; rewrite X, Y; ring).
  clearbody dx dy u v. clear. assert (K : 0 <= (u * dx + v * dy) * (u * dx + v * dy)) by apply sqr_nn. qc.
Qed.
