(* C29: SolverEvents keeps the net change. *)
From Coq Require Import List Bool Arith.
Import ListNotations.
From Verif Require Import SolverEventsModel SolverEventsSpec SolverEventsProofs.

(* A problem and a valid sequence with cancelling pairs in both directions. *)
Definition Pex := mkPb [1; 2] [3] [mkO 4 40] [10; 11].
Definition lex := [AddC 5; RemC 1; AddC 1; RemC 5; RemC 2; AddC 6; RemB 3; AddO (mkO 7 70); RemO 4; AddO (mkO 4 40);
                   RemV 10; AddV 10; AddV 12; ScalarW 4; VectorW 4; ScalarW 7].
Example lex_ok : wfP Pex /\ ok Pex lex /\ same_data Pex lex.
Proof.
  split; [constructor; simpl; repeat (constructor; [simpl; intuition discriminate|]); constructor|].
  split; [simpl; intuition discriminate|].
  intros o o' I J E. simpl in I. destruct I as [<-|[]]. simpl in J.
  intuition (try discriminate); injection H0; intros <-; simpl in E; congruence.
Qed.
Example lex_run : run lex =
  mkSE [mkW 4 true true; mkW 7 true false] [6] [] [mkO 7 70] [2] [3] [] [12] [] true.
Proof. reflexivity. Qed.

(* For any valid sequence of calls the stored sets are the exact differences between the problem
   before and after: what is stored as added is what is new, what is stored as removed is what
   disappeared, without duplicates (hence the two are disjoint). *)
Theorem C29_net_change : forall P l, wfP P -> ok P l ->
  difference (pC P) (pC (apply P l)) (addedC (run l)) (removedC (run l)) /\
  difference (pB P) (pB (apply P l)) (addedB (run l)) (removedB (run l)) /\
  difference (pV P) (pV (apply P l)) (addedV (run l)) (removedV (run l)) /\
  difference (map o_c (pO P)) (map o_c (pO (apply P l))) (map o_c (addedO (run l))) (removedO (run l)).
Proof. exact net_sets. Qed.
Print Assumptions C29_net_change.

(* Objectives with their requirements and weight, when none is added again with other ones. *)
Theorem C29_objectives_partial : forall P l, wfP P -> ok P l -> same_data P l ->
  forall o, In o (pO (apply P l)) <-> In o (addedO (run l)) \/ (In o (pO P) /\ ~ In (o_c o) (removedO (run l))).
Proof. exact net_objectives. Qed.
Print Assumptions C29_objectives_partial.

(* Without that hypothesis: the new requirements and weight are lost. *)
Theorem C29_objective_data_refuted : exists P l o, wfP P /\ ok P l /\ In o (pO (apply P l)) /\
  ~ In o (addedO (run l)) /\ ~ In o (pO P).
Proof.
  exists (mkPb [] [] [mkO 1 10] []), [RemO 1; AddO (mkO 1 20)], (mkO 1 20).
  split; [constructor; simpl; repeat (constructor; [simpl; intuition discriminate|]); constructor|].
  simpl. intuition discriminate.
Qed.
Print Assumptions C29_objective_data_refuted.

(* The solver is told to recompute its columns exactly if some variable was added or removed,
   even when additions and removals cancel. *)
Theorem C29_variable_change_signalled : forall l,
  variablesChanged (run l) = true <-> exists c, In c l /\ isVar c = true.
Proof. intros l. unfold run. rewrite changed, existsb_exists. simpl. intuition discriminate. Qed.
Print Assumptions C29_variable_change_signalled.

(* At most one weight event per constraint, with exactly the flags that were asked for. *)
Theorem C29_weight_events : forall l, NoDup (map w_c (weightEvents (run l))) /\
  forall c f g, In (mkW c f g) (weightEvents (run l)) <->
    (f = true <-> In (ScalarW c) l) /\ (g = true <-> In (VectorW c) l) /\ (f = true \/ g = true).
Proof. exact weights_in. Qed.
Print Assumptions C29_weight_events.
