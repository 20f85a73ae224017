(** Everything the sweep stores and reports belongs to one of its inputs, in any
    arithmetic. *)
Require Import List String Bool Arith Lia.
From Verif Require Import Base Scalar M_Events M_Geo M_LineOrPoint M_Splay M_Slab M_Active M_Sweep M_Crossings.
From Verif Require Import S_Sweep S_Owned.
Import Datatypes.
Import ListNotations.
Local Open Scope nat_scope.

(** If [m] returns a value, it satisfies [Q]. *)
Definition post {X} (m : res X) (Q : X -> Prop) : Prop := forall x, m = Ok x -> Q x.
Lemma post_ok : forall {X} (x : X) (Q : X -> Prop), Q x -> post (Ok x) Q.
Proof. intros X x Q H y [= <-]. exact H. Qed.
Lemma post_bind : forall {X Y} (m : res X) (f : X -> res Y) (Q : X -> Prop) (R : Y -> Prop),
  post m Q -> (forall x, m = Ok x -> Q x -> post (f x) R) -> post (bind m f) R.
Proof. intros X Y m f Q R Hm Hf y E. destruct m as [x| |]; try discriminate. apply (Hf x eq_refl (Hm x eq_refl) y E). Qed.
Lemma post_any : forall {X} (m : res X), post m (fun _ => True).
Proof. intros X m x _. exact I. Qed.
Lemma post_panic : forall {X} m (Q : X -> Prop), post (Panic m) Q. Proof. intros X m Q x [=]. Qed.
Lemma post_nofuel : forall {X} (Q : X -> Prop), post (NoFuel) Q. Proof. intros X Q x [=]. Qed.
Lemma post_fold : forall {A S} (f : S -> A -> res S) (I : S -> Prop) l s, (forall s a, In a l -> I s -> post (f s a) I) -> I s -> post (fold_res f s l) I.
Proof.
  intros A S f I l. induction l as [|a l IH]; intros s H Hs; cbn [fold_res]; [apply post_ok; exact Hs|].
  eapply post_bind; [apply H; [left; auto|exact Hs]|]. intros s' _ Hs'. apply IH; [|exact Hs']. intros s0 a0 J. apply H. right. exact J.
Qed.
Ltac skip := let x := fresh "x" in eapply post_bind; [apply post_any|intros x _ _].

Section Owned.
Context {C : Type} {ar : arith} (line_of : C -> line) (tie : nat -> nat) (P : C -> Prop).
Definition slok (sl : slab (segment C)) : Prop := forall k s, slab_get sl k = Some s -> P (sg_cross s).
Definition swok (sw : M_Sweep.sweep C) : Prop := slok (sw_segs sw) /\ forall c, In c (sw_out sw) -> P (cr_cross c).

Lemma nth_set : forall {B} (l : list B) n b k x, nth_error (list_set n b l) k = Some x -> x = b \/ nth_error l k = Some x.
Proof.
  intros B l. induction l as [|y l IH]; intros n b k x E; destruct n; cbn in E; [destruct k; discriminate|destruct k; discriminate| |].
  - destruct k; cbn in *; [left; congruence|right; exact E].
  - destruct k; cbn in *; [right; exact E|]. eapply IH. exact E.
Qed.
Lemma get_in : forall (sl : slab (segment C)) k s, nth_error (s_entries sl) k = Some (Occupied s) -> slab_get sl k = Some s.
Proof. intros sl k s E. unfold slab_get. rewrite E. reflexivity. Qed.
Lemma get_inv : forall (sl : slab (segment C)) k s, slab_get sl k = Some s -> nth_error (s_entries sl) k = Some (Occupied s).
Proof. intros sl k s E. unfold slab_get in E. destruct (nth_error _ _) as [[?|?]|]; congruence. Qed.
Lemma set_entries : forall sl n b m, slok sl -> (forall s, b = Occupied s -> P (sg_cross s)) -> slok (mkSlab (list_set n b (s_entries sl)) m).
Proof.
  intros sl n b m H Hb k s E. apply get_inv in E. cbn in E. apply nth_set in E as [E|E]; [apply Hb; auto|]. apply (H k). apply get_in. exact E.
Qed.
Lemma set_post : forall sl k s, slok sl -> P (sg_cross s) -> post (slab_set sl k s) slok.
Proof.
  intros sl k s H Hs. unfold slab_set. destruct (slab_get sl k); [|apply post_panic]. apply post_ok. apply set_entries; auto. intros s1 [= <-]. exact Hs.
Qed.
Lemma get_post : forall sl k, slok sl -> post (slab_get_unchecked sl k) (fun s => P (sg_cross s)).
Proof. intros sl k H s E. unfold slab_get_unchecked in E. destruct (slab_get sl k) eqn:G; [|discriminate]. injection E as <-. apply (H k). exact G. Qed.
Lemma expect_get_post : forall sl k m, slok sl -> post (expect (slab_get sl k) m) (fun s => P (sg_cross s)).
Proof. intros sl k m H s E. destruct (slab_get sl k) eqn:G; [|discriminate]. injection E as <-. apply (H k). exact G. Qed.
Lemma insert_post : forall sl s, slok sl -> P (sg_cross s) -> post (slab_insert sl s) slok.
Proof.
  intros sl s H Hs. unfold slab_insert. cbv zeta. destruct (Nat.eqb _ _).
  - apply post_ok. intros k s0 E. apply get_inv in E. cbn in E. destruct (Nat.lt_ge_cases k (List.length (s_entries sl))) as [L|L].
    + rewrite nth_error_app1 in E by exact L. apply (H k). apply get_in. exact E.
    + rewrite nth_error_app2 in E by exact L. destruct (k - _) as [|j]; cbn in E; [congruence|destruct j; discriminate].
  - destruct (nth_error _ _) as [[n|?]|]; try apply post_panic. apply post_ok. apply set_entries; auto. intros s0 [= <-]. exact Hs.
Qed.
Lemma remove_post : forall sl k, slok sl -> post (slab_remove sl k) (fun r => slok (fst r)).
Proof.
  intros sl k H. unfold slab_remove. destruct (nth_error _ _) as [[n|?]|]; try apply post_panic. apply post_ok. apply set_entries; auto. discriminate.
Qed.
Lemma upd_post : forall sl k f, slok sl -> (forall s, sg_cross (f s) = sg_cross s) -> post (upd_seg sl k f) slok.
Proof.
  intros sl k f H Hf. unfold upd_seg. eapply post_bind; [apply get_post; exact H|]. intros s _ Hs. apply set_post; auto. rewrite Hf. exact Hs.
Qed.
Lemma new_post : forall sl c g, slok sl -> P c -> post (segment_new line_of sl c g) (fun r => slok (fst r)).
Proof.
  intros sl c g H Hc. unfold segment_new. eapply post_bind; [apply insert_post; [exact H|exact Hc]|]. intros sl' _ H'. apply post_ok. exact H'.
Qed.
Lemma copy_post : forall fuel sl ch tg g, slok sl -> post (copy_chain line_of fuel sl ch tg g) slok.
Proof.
  intros fuel. induction fuel as [|fuel IH]; intros sl [ck|] tg g H; cbn [copy_chain]; try (apply post_ok; exact H); [apply post_nofuel|].
  eapply post_bind; [apply get_post; exact H|]. intros c _ Hc. eapply post_bind; [apply new_post; [exact H|exact Hc]|]. intros [sl1 n] _ H1. cbn in H1.
  eapply post_bind; [apply upd_post; [exact H1|reflexivity]|]. intros sl2 _ H2. eapply post_bind; [apply upd_post; [exact H2|reflexivity]|]. intros sl3 _ H3. apply IH. exact H3.
Qed.
Lemma swok_push : forall e sw, swok sw -> swok (push e sw). Proof. intros e sw H. exact H. Qed.
Lemma create_post : forall sw c g pa, swok sw -> P c -> post (create_segment line_of sw c g pa) (fun r => swok (fst r)).
Proof.
  intros sw c g pa [H O] Hc. unfold create_segment. eapply post_bind; [apply new_post; [exact H|exact Hc]|]. intros [sl s] _ H1. cbn in H1. cbv zeta.
  destruct pa as [pk|]; [|apply post_ok; split; [exact H1|exact O]].
  skip. eapply post_bind; [apply copy_post; exact H1|]. intros sl' _ H2. apply post_ok. split; [exact H2|exact O].
Qed.
Lemma new_sweep_post : forall input, (forall c, In c input -> P c) -> post (sweep_new line_of input) swok.
Proof.
  intros input H. unfold sweep_new. apply post_fold.
  - intros sw c J Hw. eapply post_bind; [apply create_post; [exact Hw|apply H; exact J]|]. intros [sw' k] _ H'. apply post_ok. exact H'.
  - split; [|intros c []]. intros k s E. unfold slab_get in E. destruct k; discriminate.
Qed.
Lemma chain_geom_post : forall fuel sl ch g, slok sl -> post (set_chain_geom fuel sl ch g) slok.
Proof.
  intros fuel. induction fuel as [|fuel IH]; intros sl [ck|] g H; cbn [set_chain_geom]; try (apply post_ok; exact H); [apply post_nofuel|].
  eapply post_bind; [apply get_post; exact H|]. intros c _ Hc. eapply post_bind; [apply set_post; [exact H|exact Hc]|]. intros sl' _ H'. apply IH. exact H'.
Qed.
Lemma seg_adjust_cross : forall (s : segment C) i, post (seg_adjust s i) (fun r => sg_cross (fst r) = sg_cross s).
Proof.
  intros s i. unfold seg_adjust. destruct (sg_geom s) as [p|p q]; [apply post_panic|]. destruct i as [r|r1 r2]; skip;
  repeat match goal with |- context [if ?b then _ else _] => destruct b end; apply post_ok; reflexivity.
Qed.
Lemma adjust_int_post : forall sw k i, swok sw -> post (adjust_for_intersection sw k i) (fun r => swok (fst r)).
Proof.
  intros sw k i [H O]. unfold adjust_for_intersection. eapply post_bind; [apply get_post; exact H|]. intros s _ Hs.
  eapply post_bind; [apply seg_adjust_cross|]. intros [s' out] _ Hc. cbn in Hc. eapply post_bind; [apply set_post; [exact H|rewrite Hc; exact Hs]|]. intros sl _ H1. cbv zeta.
  eapply post_bind; [apply chain_geom_post; exact H1|]. intros sl' _ H2. apply post_ok. split; [exact H2|]. destruct out; exact O.
Qed.
Lemma adjust_one_post : forall sw k i, swok sw -> post (adjust_one_segment line_of sw k i) (fun r => swok (fst r)).
Proof.
  intros sw k i H. unfold adjust_one_segment. eapply post_bind; [apply get_post; apply H|]. intros s _ Hs. cbv zeta.
  eapply post_bind; [apply adjust_int_post; exact H|]. intros [sw1 out] _ H1. cbn in H1. destruct out as [b|b r|r]; [apply post_ok; exact H1| |].
  - eapply post_bind; [apply create_post; [exact H1|exact Hs]|]. intros [sw2 nk] _ H2. apply post_ok. exact H2.
  - eapply post_bind; [apply create_post; [exact H1|exact Hs]|]. intros [sw2 nk] _ H2. eapply post_bind; [apply create_post; [exact H2|exact Hs]|]. intros [sw3 mk] _ H3. apply post_ok. exact H3.
Qed.
Lemma chain_overlap_post : forall sw a b, swok sw -> post (chain_overlap sw a b) swok.
Proof.
  intros sw a b [H O]. unfold chain_overlap. skip. eapply post_bind; [apply upd_post; [exact H|reflexivity]|]. intros sl1 _ H1.
  eapply post_bind; [apply upd_post; [exact H1|reflexivity]|]. intros sl2 _ H2. apply post_ok. split; [exact H2|exact O].
Qed.
Lemma cb_ok : forall s ty sw, swok sw -> P (sg_cross s) -> swok (cb s ty sw).
Proof. intros s ty sw [H O] Hs. split; [exact H|]. intros c J. cbn in J. apply in_app_or in J as [J|[<-|[]]]; [apply O; exact J|exact Hs]. Qed.
Lemma report_left_post : forall fuel sw k ty, swok sw -> post (report_left fuel sw k ty) swok.
Proof.
  intros fuel. induction fuel as [|fuel IH]; intros sw [k|] ty H; cbn [report_left]; try (apply post_ok; exact H); [apply post_nofuel|].
  eapply post_bind; [apply get_post; apply H|]. intros s _ Hs. cbv zeta. eapply post_bind; [apply upd_post; [apply H|reflexivity]|]. intros sl _ H1. apply IH.
  split; [exact H1|]. apply (cb_ok s ty sw H Hs).
Qed.
Lemma report_right_post : forall fuel sw k ty, swok sw -> post (report_right fuel sw k ty) swok.
Proof.
  intros fuel. induction fuel as [|fuel IH]; intros sw [k|] ty H; cbn [report_right]; try (apply post_ok; exact H); [apply post_nofuel|].
  eapply post_bind; [apply get_post; apply H|]. intros s _ Hs. cbv zeta. eapply post_bind; [apply remove_post; apply H|]. intros [sl s0] _ H1. cbn in H1. apply IH.
  split; [exact H1|]. apply (cb_ok s ty sw H Hs).
Qed.
Lemma pop_ok : forall sw e sw', pop tie sw = Some (e, sw') -> swok sw -> swok sw'.
Proof. intros sw e sw' E H. unfold pop in E. destruct (heap_pop _ _) as [[e0 h]|]; [|discriminate]. injection E as _ <-. exact H. Qed.

Lemma round_post : forall handle ev sw s k, (forall sw e, swok sw -> post (handle sw e) (fun r => swok (fst r))) -> swok sw ->
  post (ll_round line_of tie handle ev sw s k) (fun r => swok (fst (fst r))).
Proof.
  intros handle ev sw s k Hh H. unfold ll_round. skip. skip. destruct x0 as [i|]; [|apply post_ok; exact H].
  eapply post_bind; [apply adjust_one_post; exact H|]. intros [sw1 ao] _ H1. cbn in H1. skip.
  eapply post_bind with (Q := swok).
  { match goal with |- context [if ?b then _ else _] => destruct b end; [|apply post_ok; exact H1].
    eapply post_bind with (Q := fun r => swok (snd r)).
    { destruct (pop tie sw1) as [[e sw1']|] eqn:Ep; [|apply post_panic]. apply post_ok. apply (pop_ok _ _ _ Ep H1). }
    intros [e sw1'] _ H2. cbn in H2. eapply post_bind; [apply Hh; exact H2|]. intros [sw1'' d] _ H3. skip. apply post_ok. exact H3. }
  intros sw2 _ H2. eapply post_bind; [apply adjust_one_post; exact H2|]. intros [sw3 so] _ H3. cbn in H3. skip. skip.
  destruct ao as [ak|]; [|apply post_ok; exact H3]. skip. eapply post_bind; [apply chain_overlap_post; exact H3|]. intros sw4 _ H4.
  destruct (Nat.eqb _ _); [skip|]; apply post_ok; exact H4.
Qed.
Lemma loop_post : forall handle ev ks sw s, (forall sw e, swok sw -> post (handle sw e) (fun r => swok (fst r))) -> swok sw ->
  post (ll_loop line_of tie handle ev sw s ks) (fun r => swok (fst r)).
Proof.
  intros handle ev ks. induction ks as [|k ks IH]; intros sw s Hh H; cbn [ll_loop]; [apply post_ok; exact H|].
  eapply post_bind; [apply round_post; [exact Hh|exact H]|]. intros [[sw' s'] f] _ H1. cbn in H1. destruct f; [apply IH; auto|apply post_ok; exact H1|apply post_ok; exact H1].
Qed.
Lemma pl_post : forall s sw k, swok sw -> post (pl_round line_of s sw k) swok.
Proof.
  intros s sw k H. unfold pl_round. skip. skip. destruct x0 as [i|]; [|apply post_ok; exact H].
  eapply post_bind; [apply adjust_one_post; exact H|]. intros [sw1 o] _ H1. skip. apply post_ok. exact H1.
Qed.
Lemma for_event_post : forall sl e, slok sl -> post (segment_for_event sl e) (fun o => forall s, o = Some s -> P (sg_cross s)).
Proof.
  intros sl e H o E. unfold segment_for_event in E. destruct (slab_get sl (ev_key e)) as [s0|] eqn:G.
  - assert (K : o = None \/ o = Some s0).
    { destruct (ev_ty e); cbn in E; destruct (sg_geom s0); try discriminate; try destruct (sg_is_ovl s0); try destruct (peqb _ _); cbn in E; inversion E; auto. }
    intros s Es. destruct K as [K|K]; rewrite K in Es; [discriminate|]. injection Es as <-. apply (H _ _ G).
  - destruct (ev_ty e); cbn in E; try discriminate. injection E as <-. discriminate.
Qed.
Lemma handle_post : forall fuel sw e, swok sw -> post (handle_event line_of tie fuel sw e) (fun r => swok (fst r)).
Proof.
  intros fuel. induction fuel as [|fuel IH]; intros sw e H; cbn [handle_event]; [apply post_nofuel|].
  eapply post_bind; [apply for_event_post; apply H|]. intros [s|] _ Hs; [|apply post_ok; exact H]. specialize (Hs s eq_refl).
  skip. destruct x as [t1 pv]. skip. destruct x as [t2 nx]. cbv zeta. set (sw0 := set_active t2 sw). assert (H0 : swok sw0) by exact H. clearbody sw0.
  destruct (ev_ty e).
  all: try (apply post_ok; exact H0).
  - eapply post_bind; [apply post_fold; [intros sw1 k _ H1; apply pl_post; exact H1|exact H0]|]. intros sw1 _ H1. apply post_ok. apply cb_ok; auto.
  - skip. eapply post_bind; [apply report_right_post; exact H0|]. intros sw1 _ H1.
    destruct pv as [pk|]; [|apply post_ok; exact H1]. destruct nx as [nk|]; [|apply post_ok; exact H1]. skip. skip. skip.
    match goal with |- context [match ?o with Some _ => _ | None => _ end] => destruct o as [i|] end; [|apply post_ok; exact H1].
    eapply post_bind; [apply adjust_one_post; exact H1|]. intros [sw2 a] _ H2. eapply post_bind; [apply adjust_one_post; exact H2|]. intros [sw3 b] _ H3. skip. apply post_ok. exact H3.
  - eapply post_bind; [apply loop_post; [exact IH|exact H0]|]. intros [sw1 f] _ H1. cbn in H1.
    assert (K : forall sw2, swok sw2 -> post (let* sw3 := report_left (chain_fuel (sw_segs sw2)) sw2 (Some (ev_key e)) LineLeft in Ok (sw3, true)) (fun r => swok (fst r))).
    { intros sw2 H2. eapply post_bind; [apply report_left_post; exact H2|]. intros sw3 _ H3. apply post_ok. exact H3. }
    destruct f; [|apply K; exact H1|apply post_ok; exact H1].
    eapply post_bind with (Q := swok); [skip; apply post_ok; exact H1|]. intros sw2 _ H2. apply K. exact H2.
Qed.
Lemma next_event_post : forall sw, swok sw -> post (next_event line_of tie sw) (fun r => swok (fst r)).
Proof.
  intros sw H. unfold next_event. destruct (pop tie sw) as [[e sw1]|] eqn:Ep; [|apply post_ok; exact H].
  eapply post_bind; [apply handle_post; apply (pop_ok _ _ _ Ep H)|]. intros [sw2 b] _ H2. apply post_ok. exact H2.
Qed.
Lemma ci_loop_post : forall fuel it l, swok it -> post (ci_loop line_of tie fuel it l) (fun r => swok (fst r)).
Proof.
  intros fuel. induction fuel as [|fuel IH]; intros it l H; cbn [ci_loop];
  match goal with |- context [if ?b then _ else _] => destruct b end; try (apply post_ok; exact H); [apply post_nofuel|].
  eapply post_bind; [apply next_event_post; exact H|]. intros [it' l'] _ H1. apply IH. exact H1.
Qed.
Lemma ci_next_post : forall fuel it, swok it -> post (ci_next line_of tie fuel it) (fun r => swok (fst r)).
Proof.
  intros fuel it [H O]. unfold ci_next. cbv zeta. eapply post_bind; [apply ci_loop_post; split; [exact H|intros c []]|]. intros [it1 l] _ H1. cbn in H1.
  destruct (sw_out it1); apply post_ok; exact H1.
Qed.
Lemma calls_post : forall fuel k it, swok it -> post (calls line_of tie fuel k it) (fun ys => forall p o x, In (p, o) ys -> In x o -> P (cr_cross x)).
Proof.
  intros fuel k. induction k as [|k IH]; intros it H; cbn [calls]; [apply post_ok; intros p o x []|].
  eapply post_bind; [apply ci_next_post; exact H|]. intros [it' o] _ H1. cbn in H1. eapply post_bind; [apply IH; exact H1|]. intros ys _ Hy. apply post_ok.
  intros p o' x [J|J] K; [|apply (Hy _ _ _ J K)]. injection J as _ <-. apply H1. exact K.
Qed.

(** [Intersections] *)
Definition isok (s : intersections) : Prop := swok (in_inner s).
Definition good (r : C * C * line_intersection_result) : Prop :=
  P (fst (fst r)) /\ P (snd (fst r)) /\ common (line_of (fst (fst r))) (line_of (snd (fst r))) = Some (snd r).
Lemma index_post : forall v i, (forall c, In c v -> P (cr_cross c)) -> post (index v i) (fun c : crossing C => P (cr_cross c)).
Proof. intros v i H c E. unfold index in E. destruct (nth_error v i) eqn:N; [|discriminate]. injection E as <-. apply H. apply (nth_error_In _ _ N). Qed.
Lemma intersection_post : forall s, isok s -> post (in_intersection line_of s) (fun o => forall r, o = Some r -> good r).
Proof.
  intros s [_ O]. unfold in_intersection. cbv zeta. eapply post_bind; [apply index_post; exact O|]. intros si _ Hi. eapply post_bind; [apply index_post; exact O|]. intros sj _ Hj.
  skip. destruct x; [|apply post_ok; discriminate]. eapply post_bind with (Q := fun i => common (line_of (cr_cross si)) (line_of (cr_cross sj)) = Some i).
  { intros i E. destruct (common _ _); [|discriminate]. injection E as <-. reflexivity. }
  intros i _ Ei. apply post_ok. intros r [= <-]. repeat split; cbn; auto.
Qed.
Lemma advance_post : forall fuel f it, swok it -> post (in_advance line_of tie fuel f it) (fun r => swok (fst r)).
Proof.
  intros fuel f. induction fuel as [|fuel IH]; intros it H; cbn [in_advance]; [apply post_nofuel|].
  eapply post_bind; [apply ci_next_post; exact H|]. intros [it' o] _ H1. cbn in H1. destruct o; [|apply post_ok; exact H1].
  destruct (Nat.ltb _ _); [apply post_ok; exact H1|apply IH; exact H1].
Qed.
Lemma step_post : forall fuel s, isok s -> post (in_step line_of tie fuel s) (fun r => isok (fst r)).
Proof.
  intros fuel s H. unfold in_step. cbv zeta. destruct (Nat.ltb _ _); [skip; apply post_ok; exact H|]. destruct (Nat.leb _ _); [|skip; apply post_ok; exact H].
  eapply post_bind; [apply advance_post; exact H|]. intros [it' o] _ H1. cbn in H1. destruct o; [skip|]; apply post_ok; exact H1.
Qed.
Lemma in_next_post : forall fuel s, isok s -> post (in_next line_of tie fuel s) (fun r => isok (fst r) /\ forall x, snd r = Some x -> good x).
Proof.
  intros fuel. induction fuel as [|fuel IH]; intros s H; cbn [in_next]; [apply post_nofuel|].
  eapply post_bind; [apply step_post; exact H|]. intros [s1 go] _ H1. cbn in H1. destruct go; [|apply post_ok; split; [exact H1|discriminate]].
  eapply post_bind; [apply intersection_post; exact H1|]. intros [r|] _ Hr; [|apply IH; exact H1]. apply post_ok. split; [exact H1|]. cbn. intros x [= <-]. auto.
Qed.
Lemma in_calls_post : forall fuel k s, isok s -> post (in_calls line_of tie fuel k s) (fun rs => forall r, In (Some r) rs -> good r).
Proof.
  intros fuel k. induction k as [|k IH]; intros s H; cbn [in_calls]; [apply post_ok; intros r []|].
  eapply post_bind; [apply in_next_post; exact H|]. intros [s' o] _ [H1 Ho]. cbn in H1, Ho. eapply post_bind; [apply IH; exact H1|]. intros rs _ Hr. apply post_ok.
  intros r [J|J]; [apply Ho; exact J|apply Hr; exact J].
Qed.
Lemma in_drain_post : forall n fuel s, isok s -> post (in_drain line_of tie n fuel s) (fun rs => forall r, In r rs -> good r).
Proof.
  intros n fuel. induction n as [|n IH]; intros s H; cbn [in_drain]; [apply post_nofuel|].
  eapply post_bind; [apply in_next_post; exact H|]. intros [s' o] _ [H1 Ho]. cbn in H1, Ho. destruct o as [r|]; [|apply post_ok; intros r []].
  eapply post_bind; [apply IH; exact H1|]. intros rs _ Hr. apply post_ok. intros r0 [<-|J]; auto.
Qed.
End Owned.
