(** Exact scalars: canonical rationals [Qc], with a decision tactic.

    [Qc] has Leibniz equality and is computable and axiom-free.  The tactic
    [qc] translates a goal and hypotheses about [Qc] to [Q] and calls [nra]. *)
Require Export QArith Qcanon.
Require Import Lqa Psatz.
Open Scope Qc_scope.
Global Arguments Qcplus : simpl never.
Global Arguments Qcmult : simpl never.
Global Arguments Qcminus : simpl never.
Global Arguments Qcopp : simpl never.
Global Arguments Qcinv : simpl never.
Global Arguments Qcdiv : simpl never.
Global Arguments Qccompare : simpl never.
Global Arguments Q2Qc : simpl never.

Lemma this_add : forall a b a' b', (this a == a' -> this b == b' -> this (a + b) == a' + b')%Q.
Proof. intros a b a' b' Ha Hb. unfold Qcplus, Q2Qc, this at 1. rewrite Qred_correct. rewrite <- Ha, <- Hb. reflexivity. Qed.
Lemma this_opp : forall a a', (this a == a' -> this (- a) == - a')%Q.
Proof. intros a a' Ha. unfold Qcopp, Q2Qc, this at 1. rewrite Qred_correct. rewrite <- Ha. reflexivity. Qed.
Lemma this_sub : forall a b a' b', (this a == a' -> this b == b' -> this (a - b) == a' - b')%Q.
Proof. intros a b a' b' Ha Hb. unfold Qcminus. apply this_add; [exact Ha|apply this_opp; exact Hb]. Qed.
Lemma this_mul : forall a b a' b', (this a == a' -> this b == b' -> this (a * b) == a' * b')%Q.
Proof. intros a b a' b' Ha Hb. unfold Qcmult, Q2Qc, this at 1. rewrite Qred_correct. rewrite <- Ha, <- Hb. reflexivity. Qed.
Lemma this_inv : forall a a', (this a == a' -> this (/ a) == / a')%Q.
Proof. intros a a' Ha. unfold Qcinv, Q2Qc, this at 1. rewrite Qred_correct. rewrite <- Ha. reflexivity. Qed.
Lemma this_zero : (this 0 == 0)%Q. Proof. reflexivity. Qed.
Lemma this_one : (this 1 == 1)%Q. Proof. reflexivity. Qed.
Lemma this_Q2Qc : forall q, (this (Q2Qc q) == q)%Q. Proof. intros. apply Qred_correct. Qed.

Lemma to_lt : forall a b a' b', (this a == a')%Q -> (this b == b')%Q -> a < b -> (a' < b')%Q.
Proof. intros a b a' b' Ha Hb H. unfold Qclt in H. rewrite Ha, Hb in H. exact H. Qed.
Lemma to_le : forall a b a' b', (this a == a')%Q -> (this b == b')%Q -> a <= b -> (a' <= b')%Q.
Proof. intros a b a' b' Ha Hb H. unfold Qcle in H. rewrite Ha, Hb in H. exact H. Qed.
Lemma to_eq : forall a b a' b', (this a == a')%Q -> (this b == b')%Q -> a = b -> (a' == b')%Q.
Proof. intros a b a' b' Ha Hb ->. rewrite <- Ha, <- Hb. reflexivity. Qed.
Lemma of_lt : forall a b a' b', (this a == a')%Q -> (this b == b')%Q -> (a' < b')%Q -> a < b.
Proof. intros a b a' b' Ha Hb H. unfold Qclt. rewrite Ha, Hb. exact H. Qed.
Lemma of_le : forall a b a' b', (this a == a')%Q -> (this b == b')%Q -> (a' <= b')%Q -> a <= b.
Proof. intros a b a' b' Ha Hb H. unfold Qcle. rewrite Ha, Hb. exact H. Qed.
Lemma of_eq : forall a b a' b', (this a == a')%Q -> (this b == b')%Q -> (a' == b')%Q -> a = b.
Proof. intros a b a' b' Ha Hb H. apply Qc_is_canon. rewrite Ha, Hb. exact H. Qed.

Ltac this_tac :=
  lazymatch goal with
  | |- (this (_ + _) == _)%Q => eapply this_add; this_tac
  | |- (this (_ - _) == _)%Q => eapply this_sub; this_tac
  | |- (this (_ * _) == _)%Q => eapply this_mul; this_tac
  | |- (this (- _) == _)%Q => eapply this_opp; this_tac
  | |- (this 0 == _)%Q => exact this_zero
  | |- (this 1 == _)%Q => exact this_one
  | |- (this (Q2Qc _) == _)%Q => apply this_Q2Qc
  | |- _ => reflexivity
  end.

(** Translate every Qc hypothesis to Q (the Qc version is dropped). *)
Ltac qc_hyps :=
  repeat match goal with
  | H : ?a < ?b |- _ => eapply to_lt in H; [|this_tac|this_tac]
  | H : ?a <= ?b |- _ => eapply to_le in H; [|this_tac|this_tac]
  | H : @eq Qc ?a ?b |- _ => eapply to_eq in H; [|this_tac|this_tac]
  end.
Ltac qc_goal :=
  lazymatch goal with
  | |- _ < _ => eapply of_lt; [this_tac|this_tac|]
  | |- _ <= _ => eapply of_le; [this_tac|this_tac|]
  | |- @eq Qc _ _ => eapply of_eq; [this_tac|this_tac|]
  | |- _ => idtac
  end.
Ltac qc_gen :=
  repeat match goal with
  | |- context [this ?x] => is_var x; generalize dependent (this x); clear x; intro
  | H : context [this ?x] |- _ => is_var x; generalize dependent (this x); clear x; intros
  end.
Ltac qc_norm := qc_hyps; qc_goal.
Ltac qc := qc_norm; nra.
Ltac qcl := qc_norm; lra.

Lemma Qc_trichotomy : forall a b : Qc, {a < b} + {a = b} + {b < a}.
Proof. intros a b. destruct (Qc_dec a b) as [[H|H]|H]; auto. Qed.

(** Boolean tests. *)
Definition qltb (a b : Qc) : bool := match a ?= b with Lt => true | _ => false end.
Definition qleb (a b : Qc) : bool := match a ?= b with Gt => false | _ => true end.
Definition qeqb (a b : Qc) : bool := match a ?= b with Eq => true | _ => false end.

Lemma qltb_iff : forall a b, qltb a b = true <-> a < b.
Proof. intros. unfold qltb. rewrite Qclt_alt. destruct (a ?= b); split; congruence. Qed.
Lemma qleb_iff : forall a b, qleb a b = true <-> a <= b.
Proof. intros. unfold qleb. rewrite Qcle_alt. destruct (a ?= b); split; congruence. Qed.
Lemma qeqb_iff : forall a b, qeqb a b = true <-> a = b.
Proof.
  intros. unfold qeqb. rewrite Qceq_alt. destruct (a ?= b); split; congruence.
Qed.
Lemma qcmp_spec : forall a b : Qc, CompareSpec (a = b) (a < b) (b < a) (a ?= b).
Proof.
  intros a b. destruct (a ?= b) eqn:E; constructor.
  - apply Qceq_alt. exact E.
  - apply Qclt_alt. exact E.
  - apply Qcgt_alt. exact E.
Qed.
Lemma qcmp_opp : forall a b : Qc, (b ?= a) = CompOpp (a ?= b).
Proof.
  intros a b. unfold Qccompare. rewrite Qcompare_antisym. reflexivity.
Qed.
Lemma qcmp_refl : forall a : Qc, (a ?= a) = Eq.
Proof. intros a. apply Qceq_alt. reflexivity. Qed.

Example qc_test : forall x y z : Qc, x < y -> 0 < z -> x * z < y * z.
Proof. intros. qc. Qed.
