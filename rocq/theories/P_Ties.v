(** Runs for every order in which equal events are popped. *)
Require Import List String Bool Arith Lia.
From Verif Require Import Base Scalar M_Events M_Geo M_LineOrPoint M_Sweep M_Crossings M_Rings M_Op P_Round.
Import ListNotations.
Local Open Scope nat_scope.

(** [tie] with its values at [ks] written out. *)
Definition at_clocks (ks vs : list nat) (tie : nat -> nat) (k : nat) : nat :=
  match find (fun p => fst p =? k) (combine ks vs) with Some p => snd p | None => tie k end.
Lemma at_clocks_same : forall ks tie k, at_clocks ks (map tie ks) tie k = tie k.
Proof.
  intros ks tie k. unfold at_clocks. destruct (find _ _) as [[a b]|] eqn:E; [|reflexivity]. apply find_some in E as [I Q]. cbn [fst snd] in *. apply Nat.eqb_eq in Q. subst a.
  revert I. induction ks as [|c ks IH]; [intros []|]. cbn [map combine]. intros [X|I]; [inversion X; reflexivity|apply IH; exact I].
Qed.
Lemma below_refl : forall ar, below ar ar. Proof. intros ar g h. apply le_refl. Qed.
Lemma ties_crossings : forall ks {ar : arith} {C} (line_of : C -> line) tie fuel input r,
  ci_collect (ar := ar) line_of (at_clocks ks (map tie ks) tie) fuel input = r -> ~ given_up r -> ci_collect (ar := ar) line_of tie fuel input = r.
Proof. intros ks ar C line_of tie fuel input r <- N. apply le_same; auto. apply ci_collect_le; [apply below_refl|apply at_clocks_same]. Qed.
Lemma ties_intersections : forall ks {ar : arith} {C} (line_of : C -> line) tie fuel input r,
  in_collect (ar := ar) line_of (at_clocks ks (map tie ks) tie) fuel input = r -> ~ given_up r -> in_collect (ar := ar) line_of tie fuel input = r.
Proof. intros ks ar C line_of tie fuel input r <- N. apply le_same; auto. apply in_collect_le; [apply below_refl|apply at_clocks_same|reflexivity]. Qed.
Lemma not_given_up : forall {X} (a : X), ~ given_up (Ok a). Proof. intros X a [E|E]; discriminate. Qed.
Lemma ties_operation : forall ks {ar : arith} {A} (add : A -> lop -> winding -> res A) tie presort fuel o s r,
  op_run (ar := ar) (at_clocks ks (map tie ks) tie) presort add fuel o s = r -> ~ given_up r -> op_run (ar := ar) tie presort add fuel o s = r.
Proof. intros ks ar A add tie presort fuel o s r <- N. apply le_same; auto. apply op_run_le; [apply below_refl|apply at_clocks_same]. Qed.
