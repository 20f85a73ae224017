(** Boolean operations for every order in which equal events are popped. *)
Require Import List String Bool Arith Lia.
From Verif Require Import Base Scalar M_Events M_Geo M_LineOrPoint M_Sweep M_Crossings M_MonoPoly M_Rings M_Op M_Laminar P_Round P_Ties.
Import Datatypes.
Import ListNotations.
Local Open Scope nat_scope.

Lemma laminar_loop_le : forall (ar : arith) tie tie2 (H : forall k, tie k = tie2 k) n fuel ln rings it es ps,
  le (laminar_loop (ar := ar) tie n fuel ln rings it es ps) (laminar_loop (ar := ar) tie2 n fuel ln rings it es ps).
Proof.
  intros ar tie tie2 H n fuel ln rings. induction n as [|n IH]; intros it es ps; [apply le_refl|]. cbn [laminar_loop].
  apply bind_le; [apply ci_next_le; [apply below_refl|exact H]|]. intros [it' o] _. destruct o; [|apply le_refl].
  apply bind_le; [apply le_refl|]. intros [[it'' es'] ps'] _. apply IH.
Qed.
Lemma boolean_op_le : forall (ar : arith) tie tie2 tie' tie2' presort fuel fuel' ty A B, (forall k, tie k = tie2 k) -> (forall k, tie' k = tie2' k) ->
  le (boolean_op (ar := ar) tie presort fuel tie' fuel' ty A B) (boolean_op (ar := ar) tie2 presort fuel tie2' fuel' ty A B).
Proof.
  intros ar tie tie2 tie' tie2' presort fuel fuel' ty A B H H'. unfold boolean_op. apply bind_le; [apply le_refl|]. intros o _. apply bind_le.
  - unfold op_sweep. apply bind_le; [apply op_run_le; [apply below_refl|exact H]|]. intros r _. apply le_refl.
  - intros rings _. unfold assemble. apply bind_le; [|intros ps _; apply le_refl]. unfold find_parents. apply bind_le; [apply le_refl|]. intros es _.
    apply bind_le; [apply le_refl|]. intros it _. apply laminar_loop_le. exact H'.
Qed.
Lemma ties_boolean : forall ks ks' {ar : arith} tie presort fuel tie' fuel' ty A B r,
  boolean_op (ar := ar) (at_clocks ks (map tie ks) tie) presort fuel (at_clocks ks' (map tie' ks') tie') fuel' ty A B = r -> ~ given_up r ->
  boolean_op (ar := ar) tie presort fuel tie' fuel' ty A B = r.
Proof. intros ks ks' ar tie presort fuel tie' fuel' ty A B r <- N. apply le_same; auto. apply boolean_op_le; apply at_clocks_same. Qed.
