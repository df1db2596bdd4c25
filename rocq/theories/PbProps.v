(* C52: the tasks of a control problem. *)
From Coq Require Import List Bool Arith.
Import ListNotations.
From Verif Require Import Base QueueModel QueueSpec PbModel PbSpec PbProofs PbProofs2.

(* After any history, with calls that throw, a task is in the problem as many times as it was added and not removed;
   a call that throws counts as done. *)
Theorem C52_membership : forall b cs p t, run b empty cs = Ok p -> count_occ Nat.eq_dec (tr p) t = times t cs 0.
Proof. intros b cs p t H. exact (run_times b cs empty p t H). Qed.
Print Assumptions C52_membership.

(* When no call throws and a task is only added when absent, nothing is undefined and the tasks, constraints, updater
   and callbacks agree. *)
Theorem C52_consistent : forall b cs, proper b empty cs -> exists p, run b empty cs = Ok p /\ consistent p.
Proof. exact proper_consistent. Qed.
Print Assumptions C52_consistent.

(* Then the pending notifications of each resolution scheme are exactly what leads from the tasks it knows (those at the
   time p1 when it had no pending event) to the tasks of the problem. *)
Theorem C52_pending : forall b cs1 cs2 p1 i, proper b empty (cs1 ++ cs2) -> run b empty cs1 = Ok p1 -> nth_error (queues p1) i = Some [] -> (forall c, In c cs2 -> c <> Process i) ->
  exists p q, run b empty (cs1 ++ cs2) = Ok p /\ nth_error (queues p) i = Some q /\ valid (map addrTask (tr p1)) q /\ forall t, In (addrTask t) (tasksAfter (map addrTask (tr p1)) q) <-> In t (tr p).
Proof. exact proper_pending. Qed.
Print Assumptions C52_pending.
(* A change of weight is notified exactly if the task is in the problem. *)
Theorem C52_weight_notified : forall b cs p t, proper b empty cs -> run b empty cs = Ok p -> exists p', step b p (Weight t) = Done p' /\
  (In t (tr p) -> queues p' = map (fun q => q ++ [mkE WeightChange (addrTask t)]) (queues p)) /\ (~ In t (tr p) -> p' = p).
Proof. exact weight_notified. Qed.
Print Assumptions C52_weight_notified.

(* Only adding and removing a task may throw. *)
Theorem C52_who_throws : forall b p c p', step b p c = Threw p' -> (exists t, c = Add t /\ b t = false) \/ (exists t, c = Remove t).
Proof. exact threw_cases. Qed.
Print Assumptions C52_who_throws.
(* add throws if the constraint cannot be built; the task stays in the problem and is notified, without constraint. *)
Theorem C52_add_throws : forall b t p, (b t = true -> forall p', add b t p <> Threw p') /\ (b t = false -> forall p', add b t p <> Done p') /\ forall p', add b t p = Threw p' ->
  tr p' = tr p ++ [t] /\ In t (tokens p') /\ cons p' = cons p /\ inputs p' = inputs p /\ subs p' = subs p /\ queues p' = map (fun q => q ++ [mkE TaskAddition (addrTask t)]) (queues p).
Proof. exact add_threw. Qed.
Print Assumptions C52_add_throws.
(* remove throws exactly if the first substitution with the task's constraint is not simple; the task is then out of the
   problem and notified, but its constraint, its updates and the substitution stay. *)
Theorem C52_remove_throws : forall t p p', remove t p = Threw p' <-> baseRemove t p = Done p' /\ exists c i s, lookup t (cons p) = Some c /\ nth_error (subs p) i = Some s /\ In c (s_cstr s) /\ isSimple s = false /\
  forall k u, k < i -> nth_error (subs p) k = Some u -> ~ In c (s_cstr u).
Proof. exact remove_threw. Qed.
Print Assumptions C52_remove_throws.
Theorem C52_remove_throws_state : forall t p p', remove t p = Threw p' -> tr p' = eraseFirst t (tr p) /\ cons p' = cons p /\ inputs p' = inputs p /\ subs p' = subs p /\
  (In t (tr p) -> ~ In t (tokens p') /\ Forall2 (fun q q' => addEvent q (mkE TaskRemoval (addrTask t)) = Ok q') (queues p) (queues p')).
Proof. exact remove_threw_state. Qed.
Print Assumptions C52_remove_throws_state.
(* After such an exception, removing the substitution and then the task again completes the removal. *)
Theorem C52_remove_retry : forall t p p' c i, NoDup (tr p) -> remove t p = Threw p' -> lookup t (cons p) = Some c -> (forall k u, k <> i -> nth_error (subs p) k = Some u -> ~ In c (s_cstr u)) ->
  exists p2 p3, removeSub (Slot i) p' = Done p2 /\ remove t p2 = Done p3 /\ tr p3 = eraseFirst t (tr p) /\ lookup t (cons p3) = None /\ ~ In c (inputs p3) /\ subs p3 = firstn i (subs p) ++ skipn (S i) (subs p).
Proof. exact remove_retry. Qed.
Print Assumptions C52_remove_retry.

Definition all (_ : nat) : bool := true.
(* Three tasks, a simple substitution with the constraint of the second, one resolution scheme. *)
Definition exCalls : list call := [NewData; Add 1; Add 2; AddSub 5 (mkSub [1] 1); Process 0; Add 3; Weight 2; Remove 2; Remove 9; Weight 2; Remove 3; Add 3].
Definition view (r : res pb) := match r with Ok p => Some (tr p, cons p, inputs p, tokens p, subs p, queues p) | _ => None end.
Example C52_case : proper all empty exCalls /\
  view (run all empty exCalls) = Some ([1; 3], [(3, 3); (1, 0)], [0; 3], [1; 3], [], [[mkE TaskRemoval (addrTask 2); mkE SubstitutionRemoval (addrSlot 0); mkE TaskAddition (addrTask 3)]]) /\
  times 2 exCalls 0 = 0 /\ times 3 exCalls 0 = 1.
Proof. split; [|split; [reflexivity|split; reflexivity]]. vm_compute. repeat match goal with |- _ /\ _ => split end; try exact I; intuition discriminate. Qed.

(* add may throw and leave the task in the problem. *)
Theorem C52_add_atomic_refuted : exists b p t p', step b p (Add t) = Threw p' /\ ~ In t (tr p) /\ In t (tr p') /\ lookup t (cons p') = None /\ queues p' <> queues p.
Proof. exists (fun _ => false), (mkPb [] [] [] [] [] false [[]] 0), 1. eexists. split; [reflexivity|]. cbn. split; [tauto|]. split; [now left|]. split; [reflexivity|discriminate]. Qed.
Print Assumptions C52_add_atomic_refuted.
(* remove may throw and leave the task half removed; from an empty problem. *)
Theorem C52_remove_atomic_refuted : exists cs p t p' s, proper all empty cs /\ run all empty cs = Ok p /\ step all p (Remove t) = Threw p' /\ In t (tr p) /\ ~ In t (tr p') /\ lookup t (cons p') = Some 0 /\ In 0 (inputs p') /\
  subs p' = [s] /\ In 0 (s_cstr s) /\ queues p' <> queues p.
Proof.
  exists [NewData; Add 1; Add 2; AddSub 5 (mkSub [0; 1] 2); Process 0].
  match eval vm_compute in (run all empty [NewData; Add 1; Add 2; AddSub 5 (mkSub [0; 1] 2); Process 0]) with Ok ?p => exists p, 1; match eval vm_compute in (step all p (Remove 1)) with Threw ?p' => exists p' end end. exists (mkSub [0; 1] 2).
  split; [vm_compute; repeat match goal with |- _ /\ _ => split end; try exact I; intuition discriminate|]. split; [vm_compute; reflexivity|]. split; [vm_compute; reflexivity|].
  vm_compute. repeat match goal with |- _ /\ _ => split end; auto; try discriminate. intuition discriminate.
Qed.
Print Assumptions C52_remove_atomic_refuted.
(* Gives the computed final state of a history as witness. *)
Ltac finalState := match goal with |- exists p, (?r = Ok p /\ _) => match eval vm_compute in r with Ok ?q => exists q; split; [vm_compute; reflexivity|] end end.
(* A task added twice and removed once: still in the problem, but without constraint, and its changes of weight are not
   notified; the constraint of the first addition stays in the updater for ever. *)
Theorem C52_added_twice_refuted : exists p, run all empty [Add 1; Add 1; Remove 1] = Ok p /\ In 1 (tr p) /\ lookup 1 (cons p) = None /\ ~ In 1 (tokens p) /\ inputs p = [0].
Proof. finalState. cbn. repeat match goal with |- _ /\ _ => split end; auto. Qed.
Print Assumptions C52_added_twice_refuted.
(* If a scheme has both additions pending, the removal violates an assertion. *)
Theorem C52_added_twice_undefined_refuted : run all empty [NewData; Add 1; Add 1; Remove 1] = UB.
Proof. reflexivity. Qed.
Print Assumptions C52_added_twice_undefined_refuted.
(* add and remove are not virtual: a task added through a ControlProblem has no constraint, one removed so keeps it. *)
Theorem C52_base_refuted : (exists p, run all empty [BaseAdd 1] = Ok p /\ In 1 (tr p) /\ lookup 1 (cons p) = None) /\ (exists p, run all empty [Add 1; BaseRemove 1] = Ok p /\ ~ In 1 (tr p) /\ lookup 1 (cons p) = Some 0 /\ inputs p = [0]).
Proof. split; finalState; cbn; intuition. Qed.
Print Assumptions C52_base_refuted.
(* Removing a substitution by the object it was added with removes nothing, but is notified. *)
Theorem C52_remove_substitution_refuted : forall b p n s, exists p1 p2, step b p (AddSub n s) = Done p1 /\ step b p1 (RemoveSub (User n)) = Done p2 /\ In s (subs p2) /\
  (queues p <> [] -> queues p2 <> queues p1).
Proof.
  intros b p n s. destruct (addSub_inv n s p) as (p1 & E1 & _ & _ & _ & _ & _ & _ & S1 & Q1). destruct (removeSub_ok (User n) p1) as [p2 E2]. exists p1, p2. split; [exact E1|]. split; [exact E2|].
  pose proof (removeSub_inv _ _ _ E2) as B. cbn in B. destruct B as (_ & _ & _ & _ & _ & _ & S2 & F2). split; [rewrite S2, S1; apply in_or_app; right; now left|].
  intros N E. rewrite E in F2. rewrite Q1 in F2. destruct (queues p) as [|q qs]; [contradiction|]. cbn in F2. inversion F2 as [|? ? ? ? H]; subst. unfold addEvent in H. cbn in H. injection H as H. apply (f_equal (@length _)) in H. rewrite !app_length in H. cbn in H.
  apply (Nat.neq_succ_diag_l (length q + 1)). rewrite <- Nat.add_1_r. exact H.
Qed.
Print Assumptions C52_remove_substitution_refuted.
(* Removing a task whose constraint is in two simple substitutions leaves the second one. *)
Theorem C52_two_substitutions_refuted : proper all empty [Add 1; AddSub 5 (mkSub [0] 1); AddSub 6 (mkSub [0] 1); Remove 1] /\ exists p, run all empty [Add 1; AddSub 5 (mkSub [0] 1); AddSub 6 (mkSub [0] 1); Remove 1] = Ok p /\
  tr p = [] /\ cons p = [] /\ subs p = [mkSub [0] 1].
Proof. split; [vm_compute; intuition|]. finalState. split; [reflexivity|]. split; reflexivity. Qed.
Print Assumptions C52_two_substitutions_refuted.
