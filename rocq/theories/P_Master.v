(** The finitely many points at which anything can happen, and the run of the
    sweep over an arbitrary input. *)
Require Import List String Bool Arith Lia Permutation Sorted.
From Verif Require Import Base Scalar M_Events M_Geo M_LineOrPoint M_Splay M_Slab M_Active M_Sweep M_Crossings.
From Verif Require Import S_Geo S_Sweep P_Geo P_LineOrPoint P_Tilt P_Tile P_Inv P_Run P_Param.
Import Datatypes.
Import ListNotations.
Local Open Scope nat_scope.

Section Cands.
Variables (ln : nat -> line) (n : nat).
Notation geo := (geo ln).
Definition ends1 (c : nat) : list pt := match geo c with Point p => [p] | Line a z => [a; z] end.
Definition meet2 (cc : nat * nat) : list pt :=
  match geo (fst cc), geo (snd cc) with
  | Line _ _, Line _ _ => match intersect_line (geo (fst cc)) (geo (snd cc)) with Ok (Some (Point r)) => [r] | _ => [] end
  | _, _ => []
  end.
Definition cands : list pt := flat_map ends1 (seq 0 n) ++ flat_map meet2 (list_prod (seq 0 n) (seq 0 n)).

Lemma geo_valid : forall c, valid (geo c).
Proof. intros c. destruct (lop_of_line_spec (ln c)) as [W _]. exact W. Qed.
Lemma cands_length : List.length cands <= 2 * n + n * n.
Proof.
  assert (A : forall {X Y} (f : X -> list Y) k l, (forall x, List.length (f x) <= k) -> List.length (flat_map f l) <= k * List.length l).
  { intros X Y f k l B. induction l as [|x l IH]; [simpl; lia|]. cbn [flat_map List.length]. rewrite app_length. specialize (B x). nia. }
  unfold cands. rewrite app_length.
  pose proof (A _ _ ends1 2 (seq 0 n)) as A1. rewrite seq_length in A1.
  pose proof (A _ _ meet2 1 (list_prod (seq 0 n) (seq 0 n))) as A2. rewrite prod_length, seq_length in A2.
  assert (B1 : forall x, List.length (ends1 x) <= 2) by (intros x; unfold ends1; destruct (geo x); simpl; lia).
  assert (B2 : forall x, List.length (meet2 x) <= 1).
  { intros [x y]; unfold meet2; simpl; destruct (geo x), (geo y); cbn [List.length]; try lia. match goal with |- context [intersect_line ?a ?b] => destruct (intersect_line a b) as [[[|]|]| |] end; cbn [List.length]; lia. }
  specialize (A1 B1). specialize (A2 B2). lia.
Qed.
Lemma cands0 : forall c v, c < n -> geo c = Point v -> In v cands.
Proof. intros c v L E. apply in_app_iff. left. apply in_flat_map. exists c. split; [apply in_seq; lia|]. unfold ends1. rewrite E. left; auto. Qed.
Lemma cands1 : forall c a z, c < n -> geo c = Line a z -> In a cands /\ In z cands.
Proof.
  intros c a z L E. split; apply in_app_iff; left; apply in_flat_map; exists c; (split; [apply in_seq; lia|]); unfold ends1; rewrite E; simpl; auto.
Qed.
Lemma cands2 : forall c c' a z a' z' r, c < n -> c' < n -> geo c = Line a z -> geo c' = Line a' z' ->
  on_seg a z r -> on_seg a' z' r -> (forall r', on_seg a z r' -> on_seg a' z' r' -> r' = r) -> In r cands.
Proof.
  intros c c' a z a' z' r L L' E E' O O' U. apply in_app_iff. right. apply in_flat_map. exists (c, c').
  split; [apply in_prod; apply in_seq; lia|]. unfold meet2. simpl fst; simpl snd. rewrite E, E'.
  pose proof (geo_valid c) as W. pose proof (geo_valid c') as W'. rewrite E in W. rewrite E' in W'.
  pose proof (intersect_line_exact _ _ W W') as X. destruct (intersect_line _ _) as [o| |]; [|discriminate X|destruct X].
  destruct X as [_ X]. destruct o as [[p|p q]|]; simpl in X.
  - left. symmetry. apply X. auto.
  - exfalso. destruct X as [Lpq X]. pose proof (proj1 (X p) (on_seg_start _ _)) as [P1 P2]. pose proof (proj1 (X q) (on_seg_end _ _)) as [Q1 Q2].
    apply (lex_lt_neq _ _ Lpq). rewrite (U _ P1 P2), (U _ Q1 Q2). reflexivity.
  - exfalso. apply (X r). auto.
Qed.
Lemma cands3 : forall v, In v cands ->
  (exists c, c < n /\ geo c = Point v) \/
  (exists c a z, c < n /\ geo c = Line a z /\ (v = a \/ v = z)) \/
  (exists c c' a z a' z', c < n /\ c' < n /\ geo c = Line a z /\ geo c' = Line a' z' /\
     on_seg a z v /\ on_seg a' z' v /\ forall r', on_seg a z r' -> on_seg a' z' r' -> r' = v).
Proof.
  intros v I. apply in_app_iff in I as [I|I]; apply in_flat_map in I as (c & Ic & I).
  - apply in_seq in Ic. unfold ends1 in I. destruct (geo c) as [p|a z] eqn:E.
    + left. exists c. destruct I as [<-|[]]. split; [lia|auto].
    + right; left. exists c, a, z. split; [lia|]. split; [auto|]. destruct I as [<-|[<-|[]]]; auto.
  - right; right. destruct c as [c c']. apply in_prod_iff in Ic as [L L']. apply in_seq in L. apply in_seq in L'.
    unfold meet2 in I. simpl fst in I; simpl snd in I. pose proof (geo_valid c) as W. pose proof (geo_valid c') as W'.
    destruct (geo c) as [|a z] eqn:E; [destruct I|]. destruct (geo c') as [|a' z'] eqn:E'; [destruct I|].
    pose proof (intersect_line_exact _ _ W W') as X. destruct (intersect_line _ _) as [[[p|p q]|]| |]; try (destruct I; fail).
    destruct I as [<-|[]]. destruct X as [_ [_ X]]. simpl in X. exists c, c', a, z, a', z'.
    pose proof (proj1 (X p) eq_refl) as [P1 P2]. repeat (split; [first [lia|assumption]|]). intros r' R1 R2. apply X. auto.
Qed.
End Cands.

(** An upper bound for the number of events of one run. *)
Definition steps_bound (n : nat) : nat := 2 * n + 4 * (n * (2 * n + n * n)).

Lemma master_cands : forall {ar : arith} ln n {fa : faithful ar ln n} tie, exists sw ys sw',
  ci_from_iter ln (seq 0 n) = Ok sw /\ sw_out sw = [] /\
  (forall fuel, steps_bound n < fuel -> yields ln tie fuel sw ys sw') /\ List.length ys <= steps_bound n /\
  ygood (cands ln n) ys /\ final ln n (cands ln n) (List.concat (map snd ys)) /\
  sw_events sw' = [] /\ sw_out sw' = [].
Proof.
  intros ar ln n fa tie. destruct (tilt_list (cands ln n)) as (e & E0 & HT). specialize (HT e E0 (Qcle_refl e)).
  destruct (master ln tie n e (cands ln n) HT (cands1 ln n) (cands2 ln n) (cands3 ln n) (cands0 ln n))
    as (sw & ys & sw' & A & B & D & E & F).
  exists sw, ys, sw'. split; [exact A|]. split; [exact B|].
  assert (L : bound n (cands ln n) <= steps_bound n).
  { unfold bound, steps_bound. pose proof (cands_length ln n). nia. }
  split; [intros fuel Lf; apply D; lia|]. split; [lia|exact F].
Qed.

(** From positions to inputs. *)
Definition relabel {C} (f : nat -> C) (ys : list (pt * list (M_Sweep.crossing nat))) : list (pt * list (M_Sweep.crossing C)) :=
  map (fun y => (fst y, map (cr_map f) (snd y))) ys.

Definition shown {X} (y : pt * X) : option pt * X := (Some (fst y), snd y).

Lemma next_over : forall {ar : arith} {C} (lc : C -> line) tie fuel (sw : M_Sweep.sweep C), sw_events sw = [] -> sw_out sw = [] -> ci_next lc tie fuel sw = Ok (sw, None).
Proof.
  intros ar C lc tie fuel sw E O. destruct sw as [a b c d f]. simpl in *. subst.
  unfold ci_next. destruct fuel; reflexivity.
Qed.
Lemma calls_over : forall {ar : arith} {C} (lc : C -> line) tie fuel k (sw : M_Sweep.sweep C), sw_events sw = [] -> sw_out sw = [] ->
  calls lc tie fuel k sw = Ok (repeat (None, []) k).
Proof.
  intros ar C lc tie fuel k sw E O. induction k as [|k IH]; [reflexivity|]. cbn [calls]. rewrite next_over by auto. cbn [bind].
  rewrite IH. cbn [bind repeat]. unfold ci_intersections. rewrite O. reflexivity.
Qed.
Lemma calls_yields : forall {ar : arith} ln tie fuel sw ys sw', yields ln tie fuel sw ys sw' -> sw_events sw' = [] -> sw_out sw' = [] ->
  forall k, calls ln tie fuel k sw = Ok (firstn k (map shown ys) ++ repeat (None, []) (k - List.length ys)).
Proof.
  intros ar ln tie fuel sw ys sw' Y E O. induction Y as [sw sw' N|sw sw1 p ys sw' N Y IH]; intros k.
  - destruct k as [|k]; [reflexivity|]. cbn [calls]. rewrite N. cbn [bind]. rewrite calls_over by auto. cbn [bind].
    unfold ci_intersections. rewrite O. reflexivity.
  - destruct k as [|k]; [reflexivity|]. cbn [calls]. rewrite N. cbn [bind]. rewrite IH by auto. reflexivity.
Qed.
Lemma drain_yields : forall {ar : arith} ln tie fuel sw ys sw', yields ln tie fuel sw ys sw' -> forall k, List.length ys < k -> ci_drain ln tie k fuel sw = Ok ys.
Proof.
  intros ar ln tie fuel sw ys sw' Y. induction Y as [sw sw' N|sw sw1 p ys sw' N Y IH]; intros k L; (destruct k as [|k]; [simpl in L; lia|]); cbn [ci_drain].
  - rewrite N. reflexivity.
  - rewrite N. cbn [bind]. rewrite IH by (simpl in L; lia). reflexivity.
Qed.

Section Up.
Context {ar : arith} {C : Type} (line_of : C -> line) (tie : nat -> nat).
Variable f : nat -> C.
Let ln (i : nat) : line := line_of (f i).
Lemma calls_map : forall fuel k sw, calls line_of tie fuel k (sw_map f sw) =
  rmap (map (fun y => (fst y, map (cr_map f) (snd y)))) (calls ln tie fuel k sw).
Proof.
  intros fuel k. induction k as [|k IH]; intros sw; [reflexivity|]. cbn [calls].
  rewrite (ci_next_map f ln line_of tie (fun c => eq_refl)). destruct (ci_next ln tie fuel sw) as [[sw1 o]| |]; try reflexivity.
  cbn [rmap bind fs fst snd]. rewrite IH. destruct (calls ln tie fuel k sw1); reflexivity.
Qed.
Lemma drain_map : forall fuel k sw, ci_drain line_of tie k fuel (sw_map f sw) = rmap (relabel f) (ci_drain ln tie k fuel sw).
Proof.
  intros fuel k. induction k as [|k IH]; intros sw; [reflexivity|]. cbn [ci_drain].
  rewrite (ci_next_map f ln line_of tie (fun c => eq_refl)). destruct (ci_next ln tie fuel sw) as [[sw1 o]| |]; try reflexivity.
  cbn [rmap bind fs fst snd]. destruct o; [|reflexivity]. rewrite IH. destruct (ci_drain ln tie k fuel sw1); reflexivity.
Qed.
End Up.
