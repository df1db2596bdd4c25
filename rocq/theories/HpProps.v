(* C84. A changing problem and the hierarchical scheme. *)
From Coq Require Import List Bool Arith QArith Lia.
Import ListNotations.
From Verif Require Import Base QueueModel PbModel HpModel HpSpec HpProofs HpProofs2.
Local Open Scope nat_scope.

Definition yes (t : nat) : bool := true.
Definition w1 : weights := (1%Q, []).
Definition w5 : weights := (5%Q, []).

(* As long as no call throws, a resolution is that of the current tasks, with the current weights and substitutions. *)
Theorem C84_current : forall b ops s i s' sn, quiet b hempty ops -> hrun b hempty ops = Ok s -> hstep b s (USolve i) = HDone s' (Some sn) -> isCurrent s sn.
Proof. exact current_ok. Qed.
Print Assumptions C84_current.
(* a task added and removed at once between two resolutions, a second scheme, and a substitution *)
Example C84_current_case : let ops := [UAdd 1 w1; USolve 0; UAdd 2 w1; URemove 2; USolve 0; UWeight 1 5; UAdd 3 w1; USolve 1; UAdd 4 w1; UAddSub 7 (mkSub [0] 1); UAniso 4 [2%Q]] in
  quiet yes hempty ops /\ exists s s' sn, hrun yes hempty ops = Ok s /\ hstep yes s (USolve 0) = HDone s' (Some sn) /\
  sn_task sn 1 = Some (0, w5) /\ sn_task sn 2 = None /\ sn_task sn 3 = Some (2, w1) /\ sn_task sn 4 = Some (3, (1%Q, [2%Q])).
Proof. split; [vm_compute; repeat split; intros H; repeat destruct H as [H|H]; try discriminate H; exact H|]. eexists. eexists. eexists. split; [vm_compute; reflexivity|]. split; [vm_compute; reflexivity|]. repeat split; vm_compute; reflexivity. Qed.

(* Such histories are defined. *)
Theorem C84_defined : forall b ops, quiet b hempty ops -> exists s, hrun b hempty ops = Ok s.
Proof. intros b ops H. destruct (quiet_run b ops hempty hinv_empty H) as (s & E & _). exists s. exact E. Qed.
Print Assumptions C84_defined.

(* But after a first resolution, a resolution following the addition of a task, the removal of a task (without substitution) or the
   change of the weight of a task throws. *)
Theorem C84_unsupported : forall b ops s i s1 r o s2 r2, quiet b hempty ops -> hrun b hempty ops = Ok s -> i <= length (h_built s) -> hstep b s (USolve i) = HDone s1 r ->
  changes s1 o -> hstep b s1 o = HDone s2 r2 -> exists s3, hstep b s2 (USolve i) = HThrew s3.
Proof. exact unsupported_ok. Qed.
Print Assumptions C84_unsupported.
Example C84_unsupported_case : exists s s1 r s2 r2, quiet yes hempty [UAdd 1 w1] /\ hrun yes hempty [UAdd 1 w1] = Ok s /\ hstep yes s (USolve 0) = HDone s1 r /\
  changes s1 (UWeight 1 5) /\ hstep yes s1 (UWeight 1 5) = HDone s2 r2.
Proof. eexists. eexists. eexists. eexists. eexists. split; [vm_compute; intuition|]. split; [vm_compute; reflexivity|]. split; [vm_compute; reflexivity|]. split; [vm_compute; auto|]. vm_compute. reflexivity. Qed.

(* And when it throws the events are lost: called again, at most once for each pending event, it ends up returning the solution of
   the problem as it was built before the changes, although the problem itself is the same as when it threw. *)
Theorem C84_retry : forall b s i s1, hstep b s (USolve i) = HThrew s1 ->
  exists sn k s2 s3, nth_error (h_built s) i = Some sn /\ throwing b i k s1 s2 /\ sameProblem s s2 /\
    hstep b s2 (USolve i) = HDone s3 (if length (subs (h_pb s)) <? length (tr (h_pb s)) then Some sn else None).
Proof. exact retry_ok. Qed.
Print Assumptions C84_retry.
(* A task is added: the first resolution throws, the second returns without it. *)
Theorem C84_stale_refuted : exists ops s i s' sn, hrun yes hempty ops = Ok s /\ hstep yes s (USolve i) = HDone s' (Some sn) /\
  In 2 (tr (h_pb s)) /\ lookup 2 (cons (h_pb s)) = Some 1 /\ sn_task sn 2 = None /\ ~ isCurrent s sn.
Proof.
  exists [UAdd 1 w1; USolve 0; UAdd 2 w1; USolve 0]. eexists. exists 0. eexists. eexists. split; [vm_compute; reflexivity|]. split; [vm_compute; reflexivity|]. split; [cbn; auto|]. split; [reflexivity|]. split; [reflexivity|].
  intros [H _]. specialize (H 2 1 w1). destruct H as [_ H]. discriminate H. split; reflexivity.
Qed.
Print Assumptions C84_stale_refuted.
(* A weight is changed and a task removed: the removed task is still solved for, with the previous weight for the other one. *)
Theorem C84_removed_refuted : exists ops s i s' sn, hrun yes hempty ops = Ok s /\ hstep yes s (USolve i) = HDone s' (Some sn) /\
  ~ In 2 (tr (h_pb s)) /\ sn_task sn 2 = Some (1, w1) /\ h_w s 1 = w5 /\ sn_task sn 1 = Some (0, w1).
Proof.
  exists [UAdd 1 w1; UAdd 2 w1; USolve 0; UWeight 1 5; URemove 2; USolve 0]. eexists. exists 0. eexists. eexists. split; [vm_compute; reflexivity|]. split; [vm_compute; reflexivity|]. split; [cbn; intuition discriminate|]. repeat split; reflexivity.
Qed.
Print Assumptions C84_removed_refuted.

(* Adding a substitution makes a scheme build the problem again, whatever was lost. *)
Theorem C84_recovered : forall b s i n u s1 r, hstep b s (UAddSub n u) = HDone s1 r ->
  (exists s2 r2, hstep b s1 (USolve i) = HDone s2 r2) /\ (forall s2 sn, hstep b s1 (USolve i) = HDone s2 (Some sn) -> isCurrent s1 sn).
Proof. intros b s i n u s1 r E. split; [exact (recovered_returns b s i n u s1 r E)|]. intros s2 sn. exact (recovered_ok b s i n u s1 r s2 sn E). Qed.
Print Assumptions C84_recovered.
Example C84_recovered_case : exists s s1 s2 sn, hrun yes hempty [UAdd 1 w1; UAdd 3 w1; USolve 0; UAdd 2 w1; USolve 0] = Ok s /\ hstep yes s (UAddSub 7 (mkSub [0] 1)) = HDone s1 None /\
  hstep yes s1 (USolve 0) = HDone s2 (Some sn) /\ sn_task sn 2 = Some (2, w1).
Proof. eexists. eexists. eexists. eexists. split; [vm_compute; reflexivity|]. split; [vm_compute; reflexivity|]. split; [vm_compute; reflexivity|]. vm_compute. reflexivity. Qed.

(* The weights of a task are those last given, the scalar one and the anisotropic one each on its own, whatever throws. *)
Theorem C84_weights : forall b ops s, hrun b hempty ops = Ok s -> forall t, h_w s t = (givenScalar t ops, givenAniso t ops).
Proof. exact weights_ok. Qed.
Print Assumptions C84_weights.
Example C84_weights_case : let ops := [UAdd 1 w1; UAdd 2 w5; UAniso 1 [2%Q]; USolve 0; UWeight 1 5; USolve 0; UAniso 2 [3%Q; 4%Q]] in
  exists s, hrun yes hempty ops = Ok s /\ h_w s 1 = (5%Q, [2%Q]) /\ h_w s 2 = (5%Q, [3%Q; 4%Q]).
Proof. eexists. split; [vm_compute; reflexivity|]. split; vm_compute; reflexivity. Qed.
