(* C28: the queue of events keeps the net effect of the calls. *)
From Coq Require Import List Bool Arith.
Import ListNotations.
From Verif Require Import Base QueueModel QueueSpec QueueProofs.

Definition qex := [mkE WeightChange 1; mkE TaskAddition 3; mkE TaskRemoval 1; mkE WeightChange 3; mkE TaskAddition 1;
                   mkE SubstitutionAddition 100; mkE AnisotropicWeightChange 1; mkE TaskRemoval 2; mkE TaskRemoval 3;
                   mkE TaskAddition 2; mkE TaskRemoval 2; mkE TaskAddition 4].
Example qex_ok : valid [1; 2] qex /\ addresses qex.
Proof.
  split; [simpl; intuition discriminate|].
  intros e e' I I' Sb Sb'. simpl in I, I'. intuition (subst; simpl in *; discriminate).
Qed.
Example qex_queue : queue qex = Ok [mkE TaskRemoval 1; mkE TaskAddition 1; mkE SubstitutionAddition 100;
                                    mkE AnisotropicWeightChange 1; mkE TaskRemoval 2; mkE TaskAddition 4].
Proof. reflexivity. Qed.

(* For every valid history the queue is itself a valid history from the same tasks; it leads to
   the same tasks, the same changes of weight since the last addition of each task, the removal
   of the same initial tasks, and contains the same substitution events. *)
Theorem C28_net_effect : forall S l, valid S l -> addresses l -> exists q, queue l = Ok q /\ valid S q /\
  (forall t, In t (tasksAfter S q) <-> In t (tasksAfter S l)) /\
  (forall t, changes t q = changes t l) /\
  (forall t, In t S -> (In (mkE TaskRemoval t) q <-> In (mkE TaskRemoval t) l)) /\
  (forall e, isSub e = true -> (In e q <-> In e l)).
Proof. exact queue_net. Qed.
Print Assumptions C28_net_effect.

(* The queue holds for each task at most one removal (of an initial task), then at most one
   addition, then changes of weight. *)
Theorem C28_queue_short : forall S l q t, valid S l -> addresses l ->
  (exists e, In e l /\ e_emitter e = t /\ isSub e = false) -> queue l = Ok q ->
  exists r a w, filter (fun e => e_emitter e =? t) q = r ++ a ++ w /\
    (r = [] \/ r = [mkE TaskRemoval t] /\ In t S) /\ (a = [] \/ a = [mkE TaskAddition t]) /\
    Forall (fun e => e_type e = WeightChange \/ e_type e = AnisotropicWeightChange) w.
Proof. exact queue_short. Qed.
Print Assumptions C28_queue_short.

(* The hypothesis on addresses is needed: emitters are compared as void pointers, and the event
   only keeps the address of the substitution, which may be freed.  If a task is then allocated
   at that address and removed, the substitution event is lost. *)
Theorem C28_addresses_needed_refuted : exists S l q e, valid S l /\ queue l = Ok q /\
  In e l /\ isSub e = true /\ ~ In e q.
Proof.
  exists [], [mkE SubstitutionAddition 7; mkE TaskAddition 7; mkE TaskRemoval 7], [], (mkE SubstitutionAddition 7).
  simpl. intuition discriminate.
Qed.
Print Assumptions C28_addresses_needed_refuted.

(* Adding the same task twice (accepted by ControlProblem::add) breaks the queue: one removal
   cancels both additions, or the assertion fails. *)
Theorem C28_added_twice_refuted : exists l, queue l = UB /\
  l = [mkE TaskAddition 1; mkE TaskAddition 1; mkE TaskRemoval 1].
Proof. eexists. split; [|reflexivity]. reflexivity. Qed.
Print Assumptions C28_added_twice_refuted.
