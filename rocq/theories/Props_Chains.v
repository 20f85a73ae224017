(** Properties of the monotone decomposition. *)
Require Import List Bool Arith String QArith.
From Verif Require Import Base Scalar M_Events M_Geo M_MonoPoly S_Mono P_Mono Props_Mono M_Rings M_MonoSweep M_Chains.
Import ListNotations.
Local Open Scope list_scope.

Lemma take_pairs_new : forall pairs lines ms, take_pairs pairs lines = Ok ms ->
  forall m, In m ms -> exists top bot, mp_new top bot = Ok m.
Proof.
  induction pairs as [|(t, b) pairs IH]; intros lines ms E m I.
  - injection E as <-. destruct I.
  - simpl in E. destruct (take_line t lines) as [[l1 top]| |]; try discriminate. simpl in E.
    destruct (take_line b l1) as [[l2 bot]| |]; try discriminate. simpl in E.
    destruct (mp_new top bot) as [m0| |] eqn:N; try discriminate. simpl in E.
    destruct (take_pairs pairs l2) as [r| |] eqn:T; try discriminate. injection E as <-.
    destruct I as [<-|I]; [exists top, bot; exact N|]. exact (IH l2 r T m I).
Qed.

(** Whatever the polygon, the order in which the sort leaves equal events and the
    shape of the B-tree: every returned piece is an x-monotone pair of chains. *)
Theorem C41_pieces_are_monotone : forall presort pick P ms, monotone_chains presort pick P = Ok ms ->
  forall m, In m ms -> mono_pair (mp_top m) (mp_bot m).
Proof.
  intros presort pick P ms E m I. unfold monotone_chains in E.
  destruct (from_polygon presort P) as [s| |]; try discriminate. cbn [bind] in E.
  destruct (chains_loop pick (S (List.length (ms_events s))) s []) as [cs| |]; try discriminate. cbn [bind] in E.
  unfold chains_out in E. destruct (chain_pairs 0 cs) as [ps| |]; try discriminate. cbn [bind] in E.
  destruct (check _ _) in E; try discriminate. cbn [bind] in E.
  destruct (take_pairs_new ps _ ms E m I) as (top & bot & N). exact (proj2 (proj2 (of_new top bot m N))).
Qed.

(** The polygon of the unit tests, scaled by ten: a merge vertex at (0, 0), and
    a hole with a split and a merge vertex. *)
Definition at_ (x y : Z) : pt := mkC (Q2Qc (x # 1)) (Q2Qc (y # 1)).
Definition simple_merge : polygon :=
  mkPolygon [at_ 0 0; at_ (-10) 10; at_ 0 20; at_ 20 0; at_ 0 (-20); at_ (-10) (-10); at_ 0 0]
            [[at_ 1 1; at_ 1 2; at_ 2 2; at_ 2 1; at_ 1 1]].
Definition shown (l : list pt) : list (Q * Q) := map (fun p => (this (cx p), this (cy p))) l.
Example C41_example :
  match monotone_chains (fun l => l) (fun _ _ _ => 0%nat) simple_merge with
  | Ok ms => map (fun m => (shown (mp_top m), shown (mp_bot m))) ms
  | _ => []
  end =
  [([(-10#1, -10#1); (0#1, 0#1); (0#1, 20#1); (1#1, 1#1); (2#1, 1#1); (2#1, 2#1); (20#1, 0#1)], [(-10#1, -10#1); (0#1, -20#1); (20#1, 0#1)]);
   ([(-10#1, 10#1); (0#1, 20#1)], [(-10#1, 10#1); (0#1, 0#1); (0#1, 20#1)]);
   ([(0#1, 20#1); (20#1, 0#1)], [(0#1, 20#1); (1#1, 1#1); (1#1, 2#1); (2#1, 2#1); (20#1, 0#1)])].
Proof. vm_compute. reflexivity. Qed.
