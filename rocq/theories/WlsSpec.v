(* Specification for C30. *)
From Coq Require Import List Bool Arith ZArith.
Import ListNotations.
From Verif Require Import WlsModel.
From Verif Require QueueModel.

(* The memory is what the problem says: same tasks with their constraint, each constraint in the
   part of the solver given by its priority and kind, objectives with the priority and the weights
   of their task, the variables of the constraints, no pending event, nothing twice. *)
Record mirrors (p : problem) (m : memory) : Prop := {
  mi_map : forall t c, In (t, c) (m_map m) <-> In (t, c) (p_map p);
  mi_C : forall c, In c (s_C (m_sol m)) <-> exists t, In (t, c) (p_map p) /\
           ev_used (p_env p) t = false /\ p_prio p t = 0 /\ ev_bnd (p_env p) t = false;
  mi_B : forall c, In c (s_B (m_sol m)) <-> exists t, In (t, c) (p_map p) /\
           ev_used (p_env p) t = false /\ p_prio p t = 0 /\ ev_bnd (p_env p) t = true;
  mi_O : forall o, In o (s_O (m_sol m)) <-> exists t c, In (t, c) (p_map p) /\
           ev_used (p_env p) t = false /\ p_prio p t <> 0 /\
           o = mkSO c t (Z.of_nat (m_maxp m) - Z.of_nat (p_prio p t)) (p_w p t) (p_a p t);
  mi_X : s_X (m_sol m) = ev_extra (p_env p);
  mi_V : forall v, In v (m_cnt m) <-> exists t c, In (t, c) (p_map p) /\
           ev_used (p_env p) t = false /\ In v (ev_vars (p_env p) t);
  mi_q : m_q m = [];
  mi_nodup : NoDup (map fst (m_map m)) /\ NoDup (s_C (m_sol m)) /\ NoDup (s_B (m_sol m)) /\ NoDup (map so_c (s_O (m_sol m))) }.

(* The calls of the theorem: a task is added when absent (no substitution uses its constraint,
   which does not exist yet) and removed when present; priorities are
   changed only for tasks the problem and the memory do not know; the answers of the constraints
   change only with the substitutions; weights are not assigned without callback.
   [task] separates the addresses of tasks from those of substitutions. *)
Definition legal (task : nat -> bool) (s : state) (o : op) : Prop :=
  match o with
  | Add t => task t = true /\ ~ In t (p_tr (s_pb s)) /\ ev_used (p_env (s_pb s)) t = false
  | Rem t => In t (p_tr (s_pb s))
  | SetP t v => ~ In t (p_tr (s_pb s)) /\ (forall m, s_mem s = Some m -> ~ In t (map fst (m_map m)))
  | Sub a e => task a = false
  | SetW _ _ | SetA _ _ | Solve => True
  | Env _ | AssignW _ _ => False
  end.

(* Histories of legal calls, none of which threw. *)
Inductive history (task : nat -> bool) : list op -> state -> Prop :=
| h_nil pr w a e : history task [] (init pr w a e)
| h_snoc l s o s' : history task l s -> legal task s o -> step s o = Done s' -> history task (l ++ [o]) s'.

(* What makes the handling of an event throw, and what makes a (re)build throw. *)
Inductive cause (p : problem) : QueueModel.event -> Prop :=
| ca_w t : p_prio p t = 0 -> cause p (QueueModel.mkE QueueModel.WeightChange t)
| ca_a t : p_prio p t = 0 -> cause p (QueueModel.mkE QueueModel.AnisotropicWeightChange t)
| ca_add t : ev_ok (p_env p) t (p_prio p t) = false -> cause p (QueueModel.mkE QueueModel.TaskAddition t)
| ca_rem t : ev_used (p_env p) t = true -> cause p (QueueModel.mkE QueueModel.TaskRemoval t).
Definition bad (p : problem) (t : nat) : Prop :=
  ev_used (p_env p) t = false /\ (ev_ok (p_env p) t (p_prio p t) = false \/ (p_prio p t <> 0 /\ ev_eq (p_env p) t = false)).
Definition throws (s : state) : Prop :=
  (exists t c, In (t, c) (p_map (s_pb s)) /\ bad (s_pb s) t) \/
  (exists m e, s_mem s = Some m /\ In e (m_q m) /\ cause (s_pb s) e).

(* Histories of any calls, including those that threw: the only conditions are that a task is added when absent, and that tasks and
   substitutions have different addresses. *)
Inductive anyHistory (task : nat -> bool) : list op -> state -> Prop :=
| ah_nil pr w a e : anyHistory task [] (init pr w a e)
| ah_snoc l s o s' : anyHistory task l s ->
    match o with Add t => task t = true /\ ~ In t (p_tr (s_pb s)) | Sub a _ => task a = false | _ => True end ->
    step s o = Done s' \/ step s o = Exc s' -> anyHistory task (l ++ [o]) s'.
(* Legal calls from a state, none of which threw. *)
Inductive since (task : nat -> bool) (s0 : state) : list op -> state -> Prop :=
| si_nil : since task s0 [] s0
| si_snoc l s o s' : since task s0 l s -> legal task s o -> step s o = Done s' -> since task s0 (l ++ [o]) s'.
