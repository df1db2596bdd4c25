(* C30: the memory of the weighted least-squares scheme mirrors the problem. *)
From Coq Require Import List Bool Arith ZArith.
Import ListNotations.
From Verif Require Import QueueModel WlsModel WlsSpec WlsProofs WlsProofs2 WlsProofs3 WlsProofs4.

(* An environment: task t depends on the variables 10 and t; tasks 1 and 2 are bounds. *)
Definition env0 : env := mkEnv (fun t => [10; t]) (fun t => t <=? 2) (fun _ => false) (fun t _ => t <? 9) (fun _ => true) [].
Definition prio0 (t : nat) : nat := if t <=? 4 then 0 else t - 4.
Definition st0 : state := init prio0 (fun _ => 1) (fun _ => 1) env0.
(* the same, all tasks using variable 11; and one without bounds *)
Definition stF : state := init prio0 (fun _ => 1) (fun _ => 1)
  (mkEnv (fun t => if t =? 3 then [11; 12] else [11]) (fun t => t <=? 2) (fun _ => false) (fun t _ => t <? 9) (fun _ => true) []).
Definition envB : env := mkEnv (fun t => [10; t]) (fun _ => false) (fun _ => false) (fun t _ => t <? 9) (fun _ => true) [].
Definition isTask (t : nat) : bool := t <? 100.
Definition get (o : outcome state) : state := match o with Done s | Exc s => s | Undef => st0 end.
Definition exec (s : state) (l : list op) : state := fold_left (fun s o => get (step s o)) l s.

Definition getMem (s : state) : memory := match s_mem s with Some m => m | None => mkM [] [] 0 [] noContent end.
(* [legal] computed, for the calls used below, and runs of legal calls that return *)
Definition legalb (s : state) (o : op) : bool :=
  match o with
  | Add t => isTask t && negb (SolverEventsModel.mem t (p_tr (s_pb s))) && negb (ev_used (p_env (s_pb s)) t)
  | Rem t => SolverEventsModel.mem t (p_tr (s_pb s))
  | Sub a _ => negb (isTask a)
  | SetW _ _ | SetA _ _ | Solve => true
  | _ => false
  end.
Fixpoint run (s : state) (l : list op) : option state :=
  match l with
  | [] => Some s
  | o :: l' => if legalb s o then match step s o with Done s' => run s' l' | _ => None end else None
  end.
Lemma mem_In x l : SolverEventsModel.mem x l = true <-> In x l.
Proof.
  unfold SolverEventsModel.mem. rewrite existsb_exists. split.
  - intros (y & H & E). apply Nat.eqb_eq in E. now subst.
  - intros H. exists x. split; [exact H|apply Nat.eqb_refl].
Qed.
Lemma legalb_legal s o : legalb s o = true -> legal isTask s o.
Proof.
  destruct o; simpl; try discriminate; auto.
  - intros H. apply andb_true_iff in H. destruct H as [H H3]. apply andb_true_iff in H. destruct H as [H1 H2].
    split; [exact H1|]. split.
    + intros X. apply mem_In in X. rewrite X in H2. discriminate.
    + now apply negb_true_iff.
  - apply mem_In.
  - apply negb_true_iff.
Qed.
Lemma run_history l : forall l0 s s', history isTask l0 s -> run s l = Some s' -> history isTask (l0 ++ l) s'.
Proof.
  induction l as [|o l IH]; intros l0 s s' H C; simpl in C.
  { injection C as <-. now rewrite app_nil_r. }
  destruct (legalb s o) eqn:L; [|discriminate]. destruct (step s o) eqn:E; try discriminate.
  replace (l0 ++ o :: l) with ((l0 ++ [o]) ++ l) by (rewrite <- app_assoc; reflexivity).
  eapply IH; [|exact C]. eapply h_snoc; eauto using legalb_legal.
Qed.
Ltac hist s l := apply (run_history l [] s); [apply h_nil|vm_compute; reflexivity].
Ltac comp := repeat match goal with |- _ /\ _ => split end; vm_compute; auto 20.

(* A history with a bound, a constraint, objectives, re-weighting, removal and re-addition, and a
   change of the substitutions. *)
Definition l1 := [Add 1; Add 3; Add 5; Add 6; Sub 200 env0; Solve].
Definition l2 := l1 ++ [SetW 5 7; Rem 3; Rem 6; Add 6; SetA 6 9; Add 7; Rem 1; Add 4; Add 2].
Example l2_history : history isTask l2 (exec st0 l2).
Proof. hist st0 l2. Qed.
Example l2_solved : exists st', step (exec st0 l2) Solve = Done st' /\
  m_sol (getMem st') = mkC [6] [7] [mkSO 2 5 1 7 1; mkSO 4 6 0 1 9; mkSO 5 7 (-1) 1 1] [].
Proof. exists (exec st0 (l2 ++ [Solve])). comp. Qed.

(* After any history of legal calls that did not throw, a solve that returns leaves the memory
   and the solver with exactly the tasks of the problem, with their priority and weights.
   Partial: calls that threw, priority changes of known tasks, assignments of weights without
   callback and changes of the constraints' nature are excluded; see the refutations. *)
Theorem C30_mirror_partial : forall task l st st', history task l st -> step st Solve = Done st' ->
  s_pb st' = s_pb st /\ exists m, s_mem st' = Some m /\ mirrors (s_pb st') m.
Proof. exact mirror_after_solve. Qed.
Print Assumptions C30_mirror_partial.

(* In such histories a solve is never undefined, and throws only because of a task the scheme
   does not support, a change of weight of a task of priority 0, or the removal of a task used by
   a substitution; the other calls always return. *)
Theorem C30_solve_throws_only_if_partial : forall task l st, history task l st ->
  step st Solve <> Undef /\ (forall st', step st Solve = Exc st' -> throws st).
Proof. exact solve_defined. Qed.
Print Assumptions C30_solve_throws_only_if_partial.
Theorem C30_calls_return_partial : forall task l st o, history task l st -> legal task st o -> o <> Solve ->
  exists st', step st o = Done st'.
Proof. exact others_succeed. Qed.
Print Assumptions C30_calls_return_partial.

(* A solve that throws loses the events handled before the one that threw: the next solve returns,
   and the objective of task 5 is not in the solver although the task is in the problem. *)
Theorem C30_exception_loses_task_refuted : exists l st st1 st2 m, history isTask l st /\
  step st Solve = Exc st1 /\ step st1 Solve = Done st2 /\ s_mem st2 = Some m /\ m_q m = [] /\
  p_prio (s_pb st2) 5 = 1 /\ In (5, 1) (p_map (s_pb st2)) /\ s_O (m_sol m) = [].
Proof.
  pose (st := exec st0 [Add 3; Solve; Add 5; SetW 3 2]). exists [Add 3; Solve; Add 5; SetW 3 2], st, (exec st [Solve]), (exec st [Solve; Solve]), (getMem (exec st [Solve; Solve])).
  split; [hist st0 [Add 3; Solve; Add 5; SetW 3 2]|comp].
Qed.
Print Assumptions C30_exception_loses_task_refuted.

(* Removing a task whose addition threw (unsupported by the scheme) un-counts variables that were
   never counted: after a solve that returns, variable 11 of task 3 is not a variable any more. *)
Theorem C30_failed_addition_refuted : exists l st st1 st2 st3 m, history isTask l st /\
  step st Solve = Exc st1 /\ step st1 (Rem 9) = Done st2 /\ step st2 Solve = Done st3 /\ s_mem st3 = Some m /\
  In (3, 0) (p_map (s_pb st3)) /\ In 11 (ev_vars (p_env (s_pb st3)) 3) /\ In 0 (s_C (m_sol m)) /\ ~ In 11 (m_cnt m).
Proof.
  pose (st := exec stF [Add 3; Solve; Add 9]). exists [Add 3; Solve; Add 9], st, (exec st [Solve]), (exec st [Solve; Rem 9]), (exec st [Solve; Rem 9; Solve]), (getMem (exec st [Solve; Rem 9; Solve])).
  split; [hist stF [Add 3; Solve; Add 9]|].
  comp. intros [E|[]]; discriminate E.
Qed.
Print Assumptions C30_failed_addition_refuted.

(* A change of priority sends no event: the objective keeps its old level, ... *)
Theorem C30_priority_change_refuted : exists l st st1 m, history isTask l st /\
  step (get (step st (SetP 6 1))) Solve = Done st1 /\ s_mem st1 = Some m /\ p_prio (s_pb st1) 6 = 1 /\
  s_O (m_sol m) = [mkSO 1 6 0 1 1; mkSO 0 5 1 1 1].
Proof.
  pose (st := exec st0 [Add 5; Add 6; Solve]). exists [Add 5; Add 6; Solve], st, (exec st [SetP 6 1; Solve]), (getMem (exec st [SetP 6 1; Solve])).
  split; [hist st0 [Add 5; Add 6; Solve]|comp].
Qed.
Print Assumptions C30_priority_change_refuted.
(* ... and if the task is then removed, its objective stays in the solver. *)
Theorem C30_priority_then_removal_refuted : exists l st st1 m, history isTask l st /\
  step (exec st [SetP 5 0; Rem 5]) Solve = Done st1 /\ s_mem st1 = Some m /\ p_map (s_pb st1) = [(3, 1)] /\
  s_O (m_sol m) = [mkSO 0 5 0 1 1].
Proof.
  pose (st := exec st0 [Add 5; Add 3; Solve]). exists [Add 5; Add 3; Solve], st, (exec st [SetP 5 0; Rem 5; Solve]), (getMem (exec st [SetP 5 0; Rem 5; Solve])).
  split; [hist st0 [Add 5; Add 3; Solve]|comp].
Qed.
Print Assumptions C30_priority_then_removal_refuted.

(* weight() = Weight(v) changes the weight without running the callbacks: the solver keeps the old one. *)
Theorem C30_weight_assignment_refuted : exists l st st1 m, history isTask l st /\
  step (exec st [AssignW 5 3]) Solve = Done st1 /\ s_mem st1 = Some m /\ p_w (s_pb st1) 5 = 3 /\
  s_O (m_sol m) = [mkSO 0 5 0 1 1].
Proof.
  pose (st := exec st0 [Add 5; Solve]). exists [Add 5; Solve], st, (exec st [AssignW 5 3; Solve]), (getMem (exec st [AssignW 5 3; Solve])).
  split; [hist st0 [Add 5; Solve]|comp].
Qed.
Print Assumptions C30_weight_assignment_refuted.

(* The nature of a constraint is asked again at its removal: a bound whose Jacobian's properties
   changed since it was added is removed as a constraint, and stays as a bound. *)
Theorem C30_bound_reclassified_refuted : exists l st st1 m e', history isTask l st /\
  step (exec st [Env e'; Rem 1]) Solve = Done st1 /\ s_mem st1 = Some m /\ p_map (s_pb st1) = [] /\
  s_B (m_sol m) = [0].
Proof.
  pose (st := exec st0 [Add 1; Solve]). exists [Add 1; Solve], st, (exec st [Env envB; Rem 1; Solve]), (getMem (exec st [Env envB; Rem 1; Solve])), envB.
  split; [hist st0 [Add 1; Solve]|comp].
Qed.
Print Assumptions C30_bound_reclassified_refuted.

(* The way out: after any calls whatever, including those of the refutations above and below, a change of substitution always
   returns, the next solve throws exactly if a task is not supported by the scheme and, if it returns, all solves that return
   after legal calls mirror the problem again. *)
Theorem C30_resync : forall task l st a e, anyHistory task l st -> task a = false -> exists s1, step st (Sub a e) = Done s1 /\ step s1 Solve <> Undef /\
  ((exists s2, step s1 Solve = Exc s2) <-> exists t c, In (t, c) (p_map (s_pb s1)) /\ bad (s_pb s1) t) /\
  (forall s2 l' st' st'', step s1 Solve = Done s2 -> since task s2 l' st' -> step st' Solve = Done st'' ->
     s_pb st'' = s_pb st' /\ exists m, s_mem st'' = Some m /\ mirrors (s_pb st'') m).
Proof. exact resync. Qed.
Print Assumptions C30_resync.
(* [anyHistory] computed *)
Definition okb (s : state) (o : op) : bool :=
  match o with Add t => isTask t && negb (SolverEventsModel.mem t (p_tr (s_pb s))) | Sub a _ => negb (isTask a) | _ => true end.
Fixpoint runAny (s : state) (l : list op) : option state :=
  match l with
  | [] => Some s
  | o :: l' => if okb s o then match step s o with Done s' | Exc s' => runAny s' l' | Undef => None end else None
  end.
Lemma runAny_history l : forall l0 s s', anyHistory isTask l0 s -> runAny s l = Some s' -> anyHistory isTask (l0 ++ l) s'.
Proof.
  induction l as [|o l IH]; intros l0 s s' H C; cbn [runAny] in C.
  { injection C as <-. now rewrite app_nil_r. }
  destruct (okb s o) eqn:L; [|discriminate].
  assert (G : match o with Add t => isTask t = true /\ ~ In t (p_tr (s_pb s)) | Sub a _ => isTask a = false | _ => True end).
  { destruct o; auto; unfold okb in L.
    - apply andb_true_iff in L as [A B]. split; [exact A|]. intros X. apply mem_In in X. rewrite X in B. discriminate.
    - now apply negb_true_iff. }
  replace (l0 ++ o :: l) with ((l0 ++ [o]) ++ l) by (rewrite <- app_assoc; reflexivity).
  destruct (step s o) as [s1|s1|] eqn:E; [| |discriminate]; (eapply IH; [|exact C]; eapply ah_snoc; [exact H|exact G|auto]).
Qed.
Definition l3 := [Add 3; Add 6; Solve; Add 5; SetW 3 2; Solve; SetP 6 1; AssignW 6 4].
Example l3_resync : anyHistory isTask l3 (exec st0 l3) /\
  s_O (m_sol (getMem (exec st0 (l3 ++ [Solve])))) = [mkSO 1 6 0 1 1] /\
  s_O (m_sol (getMem (exec st0 (l3 ++ [Sub 200 env0; Solve])))) = [mkSO 2 5 0 1 1; mkSO 1 6 0 4 1] /\
  since isTask (exec st0 (l3 ++ [Sub 200 env0; Solve])) [Rem 5] (exec st0 (l3 ++ [Sub 200 env0; Solve; Rem 5])).
Proof.
  split; [apply (runAny_history l3 [] st0); [apply ah_nil|vm_compute; reflexivity]|]. split; [vm_compute; reflexivity|]. split; [vm_compute; reflexivity|].
  apply (si_snoc isTask _ [] (exec st0 (l3 ++ [Sub 200 env0; Solve])) (Rem 5)); [apply si_nil|vm_compute; auto|vm_compute; reflexivity].
Qed.

(* A build that throws has already dropped the events and the previous solver: the next solve reaches the numerical resolution with a solver that was
   given nothing, although the problem still has its tasks. *)
Theorem C30_failed_rebuild_refuted : exists l st st1 st2 m, history isTask l st /\ step st Solve = Exc st1 /\ step st1 Solve = Done st2 /\
  s_mem st2 = Some m /\ m_sol m = noContent /\ In (3, 0) (p_map (s_pb st2)) /\ ~ mirrors (s_pb st2) m.
Proof.
  pose (st := exec st0 [Add 3; Solve; Add 9; Sub 200 env0]).
  exists [Add 3; Solve; Add 9; Sub 200 env0], st, (exec st [Solve]), (exec st [Solve; Solve]), (getMem (exec st [Solve; Solve])).
  split; [hist st0 [Add 3; Solve; Add 9; Sub 200 env0]|]. split; [vm_compute; reflexivity|]. split; [vm_compute; reflexivity|].
  split; [vm_compute; reflexivity|]. split; [vm_compute; reflexivity|]. split; [vm_compute; auto|].
  intros [_ H _ _ _ _ _ _]. apply (proj2 (H 0)). exists 3. vm_compute. auto.
Qed.
Print Assumptions C30_failed_rebuild_refuted.
