(* Model of a LinearizedControlProblem solved by scheme::WeightedLeastSquares
   (src/scheme/WeightedLeastSquares.cpp, src/LinearizedControlProblem.cpp, src/ControlProblem.cpp,
   include/tvm/scheme/internal/LinearizedProblemComputationData.h, helpers.hpp).
   Tasks, constraints and variables are pointers, hence nat.  The queue is QueueModel, the
   solver's events are SolverEventsModel.  The solver is its content: which constraints, bounds
   and objectives it holds, with the weights its matrices were computed with (its matrices are
   SolverModel).  Exceptions thrown by the solver itself are not modelled.  Variables are counted
   one by one (VarCountingModel treats sub-variables).  Priorities are nat. *)
From Coq Require Import List Bool Arith ZArith.
Import ListNotations.
From Verif Require Import QueueModel SolverEventsModel.

(* What the scheme asks of the constraint of a task, given the current substitutions:
   ev_vars: the variables after substitution (c.constraint->variables() and subs.substitute);
   ev_bnd: canBeUsedAsBound; ev_used: subs.uses; ev_ok: abilities_.check at a priority;
   ev_eq: type() == EQUAL; ev_extra: subs.additionalConstraints. *)
Record env := mkEnv {
  ev_vars : nat -> list nat; ev_bnd : nat -> bool; ev_used : nat -> bool;
  ev_ok : nat -> nat -> bool; ev_eq : nat -> bool; ev_extra : list nat }.

(* std::map keyed by the task: find, operator[]=, erase *)
Fixpoint find (t : nat) (m : list (nat * nat)) : option nat :=
  match m with [] => None | (u, c) :: m' => if t =? u then Some c else find t m' end.
Definition erase (t : nat) (m : list (nat * nat)) : list (nat * nat) :=
  filter (fun p => negb (fst p =? t)) m.
Definition set (t c : nat) (m : list (nat * nat)) : list (nat * nat) := (t, c) :: erase t m.
Definition upd {A} (f : nat -> A) (t : nat) (v : A) : nat -> A := fun u => if u =? t then v else f u.

(* The problem: tr_ (ControlProblem.h), constraints_ (LinearizedControlProblem.h) whose keys are
   also those of callbackTokens_, the next constraint to be allocated, and the requirements of
   the tasks. *)
Record problem := mkP {
  p_tr : list nat; p_map : list (nat * nat); p_fresh : nat;
  p_prio : nat -> nat; p_w : nat -> nat; p_a : nat -> nat; p_env : env }.

(* An objective of the solver: constraint, requirements (those of the task), exponent of the
   scalarization weight, weights the matrices were computed with *)
Record sobj := mkSO { so_c : nat; so_t : nat; so_exp : Z; so_w : nat; so_a : nat }.
Record content := mkC { s_C : list nat; s_B : list nat; s_O : list sobj; s_X : list nat }.
Definition noContent := mkC [] [] [] [].

(* WeightedLeastSquares::Memory (WeightedLeastSquares.h) with its bases: task2Constraint_, the
   multiset of variables_, maxp, events_, solver *)
Record memory := mkM {
  m_map : list (nat * nat); m_cnt : list nat; m_maxp : nat; m_q : list event; m_sol : content }.
Record state := mkS { s_pb : problem; s_mem : option memory }.

(* An operation returns, throws, or is undefined (violated assertion); in the first two cases
   the new state is given. *)
Inductive outcome (A : Type) := Done (a : A) | Exc (a : A) | Undef.
Arguments Done {A} a. Arguments Exc {A} a. Arguments Undef {A}.

(* ControlProblem::notify, ControlProblem.cpp:66-72, for the data of this scheme *)
Definition notify (s : state) (e : event) : outcome state :=
  match s_mem s with
  | None => Done s
  | Some m => match addEvent (m_q m) e with
              | Base.Ok q => Done (mkS (s_pb s) (Some (mkM (m_map m) (m_cnt m) (m_maxp m) q (m_sol m))))
              | _ => Undef
              end
  end.

(* LinearizedControlProblem::add, LinearizedControlProblem.cpp:26-36 and ControlProblem.cpp:19-25;
   the updater is not modelled *)
Definition addTaskP (t : nat) (p : problem) : problem :=
  mkP (p_tr p ++ [t]) (set t (p_fresh p) (p_map p)) (S (p_fresh p)) (p_prio p) (p_w p) (p_a p) (p_env p).
(* LinearizedControlProblem::remove, LinearizedControlProblem.cpp:59-70 and ControlProblem.cpp:27-38;
   the removal of the substitution using the task's constraint is a separate operation *)
Definition removeTaskP (t : nat) (p : problem) : problem :=
  mkP (eraseFirst t (p_tr p)) (erase t (p_map p)) (p_fresh p) (p_prio p) (p_w p) (p_a p) (p_env p).
Definition setPrio (t v : nat) (p : problem) : problem :=
  mkP (p_tr p) (p_map p) (p_fresh p) (upd (p_prio p) t v) (p_w p) (p_a p) (p_env p).
Definition setWeight (t v : nat) (p : problem) : problem :=
  mkP (p_tr p) (p_map p) (p_fresh p) (p_prio p) (upd (p_w p) t v) (p_a p) (p_env p).
Definition setAniso (t v : nat) (p : problem) : problem :=
  mkP (p_tr p) (p_map p) (p_fresh p) (p_prio p) (p_w p) (upd (p_a p) t v) (p_env p).
Definition setEnv (e : env) (p : problem) : problem :=
  mkP (p_tr p) (p_map p) (p_fresh p) (p_prio p) (p_w p) (p_a p) e.

(* addVariable and removeVariable, ProblemComputationData.h:98-112; removal of an absent
   variable throws (VariableCountingVector.cpp). *)
Definition addVar (v : nat) (x : list nat * se) : list nat * se :=
  let '(cnt, s) := x in (v :: cnt, if SolverEventsModel.mem v cnt then s else addVariable v s).
Definition addVars (vs : list nat) (x : list nat * se) : list nat * se := fold_left (fun x v => addVar v x) vs x.
Fixpoint removeVars (vs : list nat) (x : list nat * se) : outcome (list nat * se) :=
  match vs with
  | [] => Done x
  | v :: vs' =>
      let '(cnt, s) := x in
      if SolverEventsModel.mem v cnt then
        let cnt' := eraseFirst v cnt in
        removeVars vs' (cnt', if SolverEventsModel.mem v cnt' then s else removeVariable v s)
      else Exc x
  end.

(* addTask, WeightedLeastSquares.cpp:221-266 *)
Definition addTask (p : problem) (t : nat) (m : memory) (s : se) : outcome (memory * se) :=
  match find t (p_map p) with
  | None => Done (m, s)
  | Some c =>
      match find t (m_map m) with
      | Some _ => Undef (* assertion, LinearizedProblemComputationData.h:29 *)
      | None =>
          let mp := set t c (m_map m) in
          if negb (ev_ok (p_env p) t (p_prio p t)) then Exc (mkM mp (m_cnt m) (m_maxp m) (m_q m) (m_sol m), s)
          else
            let '(cnt, s1) := addVars (ev_vars (p_env p) t) (m_cnt m, s) in
            let s2 := if (p_prio p t =? 0) && ev_bnd (p_env p) t then addBound c s1
                      else if p_prio p t =? 0 then addConstraint c s1
                      else addObjective (mkO c t) s1 in
            Done (mkM mp cnt (m_maxp m) (m_q m) (m_sol m), s2)
      end
  end.

(* removeTask, WeightedLeastSquares.cpp:268-313 *)
Definition removeTask (p : problem) (t : nat) (m : memory) (s : se) : outcome (memory * se) :=
  match find t (m_map m) with
  | None => Done (m, s)
  | Some c =>
      if ev_used (p_env p) t then Exc (m, s)
      else
        match removeVars (ev_vars (p_env p) t) (m_cnt m, s) with
        | Undef => Undef
        | Exc (cnt, s1) => Exc (mkM (m_map m) cnt (m_maxp m) (m_q m) (m_sol m), s1)
        | Done (cnt, s1) =>
            let s2 := if (p_prio p t =? 0) && ev_bnd (p_env p) t then removeBound c s1
                      else if p_prio p t =? 0 then removeConstraint c s1
                      else removeObjective c s1 in
            Done (mkM (erase t (m_map m)) cnt (m_maxp m) (m_q m) (m_sol m), s2)
        end
  end.

(* one turn of the loop WeightedLeastSquares.cpp:60-91; the event is already popped.
   The weight events use problem.constraintWithRequirements, which throws for an absent task. *)
Definition handle (p : problem) (e : event) (m : memory) (s : se) : outcome (memory * se) :=
  let t := e_emitter e in
  match e_type e with
  | WeightChange | AnisotropicWeightChange =>
      match find t (p_map p) with
      | None => Exc (m, s)
      | Some c => if p_prio p t =? 0 then Exc (m, s)
                  else Done (m, match e_type e with WeightChange => addScalarWeightEvent c s
                                | _ => addVectorWeightEvent c s end)
      end
  | TaskAddition => addTask p t m s
  | TaskRemoval => removeTask p t m s
  | _ => Exc (m, s)
  end.
Definition withQueue (q : list event) (m : memory) : memory :=
  mkM (m_map m) (m_cnt m) (m_maxp m) q (m_sol m).
(* the loop, WeightedLeastSquares.cpp:60-91: the queue is emptied as the events are handled *)
Fixpoint loop (p : problem) (q : list event) (m : memory) (s : se) : outcome (memory * se) :=
  match q with
  | [] => Done (withQueue [] m, s)
  | e :: q' => match handle p e (withQueue q' m) s with
               | Done (m', s') => loop p q' m' s'
               | r => r
               end
  end.

(* LeastSquareSolver::process, LeastSquareSolver.cpp:183-292: updateWeights (294-328; the weights
   not concerned by the event are taken as unchanged), processRemovedConstraints (330-378),
   processAddedConstraints (404-420).  The scalarization weight of an added objective was computed
   by addTask in the same call, from the same priority and maxp. *)
Definition refresh (p : problem) (ws : list wevent) (o : sobj) : sobj :=
  match List.find (fun w => w_c w =? so_c o) ws with
  | None => o
  | Some w => mkSO (so_c o) (so_t o) (so_exp o) (if w_scalar w then p_w p (so_t o) else so_w o)
                   (if w_vector w then p_a p (so_t o) else so_a o)
  end.
Definition newObj (p : problem) (maxp : nat) (c t : nat) : sobj :=
  mkSO c t (Z.of_nat maxp - Z.of_nat (p_prio p t)) (p_w p t) (p_a p t).
Definition process (p : problem) (maxp : nat) (s : se) (k : content) : content :=
  let O1 := map (refresh p (weightEvents s)) (s_O k) in
  mkC (filter (fun c => negb (SolverEventsModel.mem c (removedC s))) (s_C k) ++ addedC s)
      (filter (fun c => negb (SolverEventsModel.mem c (removedB s))) (s_B k) ++ addedB s)
      (filter (fun o => negb (SolverEventsModel.mem (so_c o) (removedO s))) O1
         ++ map (fun o => newObj p maxp (o_c o) (o_data o)) (addedO s))
      (s_X k).

(* processProblem, WeightedLeastSquares.cpp:113-219, on an empty memory.  The constraints are
   scanned first (124-159): the variables are counted, an unsupported constraint throws, which
   leaves the mapping of the tasks, the variables counted so far and an unbuilt solver. *)
Fixpoint scan (p : problem) (l : list (nat * nat)) (cnt : list nat) (maxp : nat) : outcome (list nat * nat) :=
  match l with
  | [] => Done (cnt, maxp)
  | (t, _) :: l' =>
      if ev_used (p_env p) t then scan p l' cnt maxp
      else if negb (ev_ok (p_env p) t (p_prio p t)) then Exc (cnt, 0)
      else
        let cnt' := rev (ev_vars (p_env p) t) ++ cnt in
        if (p_prio p t =? 0) then scan p l' cnt' maxp
        else if ev_eq (p_env p) t then scan p l' cnt' (Nat.max maxp (p_prio p t))
        else Exc (cnt', 0)
  end.
Definition isB (p : problem) (x : nat * nat) : bool :=
  negb (ev_used (p_env p) (fst x)) && (p_prio p (fst x) =? 0) && ev_bnd (p_env p) (fst x).
Definition isC (p : problem) (x : nat * nat) : bool :=
  negb (ev_used (p_env p) (fst x)) && (p_prio p (fst x) =? 0) && negb (ev_bnd (p_env p) (fst x)).
Definition isO (p : problem) (x : nat * nat) : bool :=
  negb (ev_used (p_env p) (fst x)) && negb (p_prio p (fst x) =? 0).
Definition processProblem (p : problem) : outcome memory :=
  match scan p (p_map p) [] 0 with
  | Undef => Undef
  | Exc (cnt, _) => Exc (mkM (p_map p) cnt 0 [] noContent)
  | Done (cnt, maxp) =>
      Done (mkM (p_map p) cnt maxp []
        (mkC (map snd (filter (isC p) (p_map p))) (map snd (filter (isB p) (p_map p)))
             (map (fun x => newObj p maxp (snd x) (fst x)) (filter (isO p) (p_map p))) (ev_extra (p_env p))))
  end.

(* ResolutionScheme::solve, ResolutionScheme.h:71-82, up to the numerical resolution:
   getComputationData (helpers.hpp:14-29; nothing is stored if the creation throws) and
   updateComputationData_ (WeightedLeastSquares.cpp:40-97) *)
Definition isSubE (e : event) : bool :=
  match e_type e with SubstitutionAddition | SubstitutionRemoval => true | _ => false end.
Definition solve (st : state) : outcome state :=
  let p := s_pb st in
  match s_mem st with
  | None => match processProblem p with
            | Done m => Done (mkS p (Some m))
            | Exc _ => Exc st
            | Undef => Undef
            end
  | Some m =>
      match m_q m with
      | [] => Done st
      | q =>
          if existsb isSubE q then
            match processProblem p with
            | Done m' => Done (mkS p (Some m'))
            | Exc m' => Exc (mkS p (Some m'))
            | Undef => Undef
            end
          else
            match loop p q m SolverEventsModel.empty with
            | Undef => Undef
            | Exc (m', _) => Exc (mkS p (Some m'))
            | Done (m', s) =>
                Done (mkS p (Some (mkM (m_map m') (m_cnt m') (m_maxp m') (m_q m') (process p (m_maxp m') s (m_sol m')))))
            end
      end
  end.

(* The calls of a user *)
Inductive op :=
| Add (t : nat) | Rem (t : nat)
| SetW (t v : nat)        (* requirements.weight().value(v), SingleSolvingRequirement.h:31-42 *)
| SetA (t v : nat)        (* requirements.anisotropicWeight().value(v) *)
| AssignW (t v : nat)     (* requirements.weight() = Weight(v): no callback, SingleSolvingRequirement.h:52-57 *)
| SetP (t v : nat)        (* requirements.priorityLevel().value(v): no callback is registered *)
| Sub (a : nat) (e : env) (* add or remove a substitution at address a, LinearizedControlProblem.cpp:72-84 *)
| Env (e : env)           (* any other change in what the constraints answer *)
| Solve.

Definition mapP (f : problem -> problem) (s : state) : state := mkS (f (s_pb s)) (s_mem s).
Definition step (s : state) (o : op) : outcome state :=
  match o with
  | Add t => notify (mapP (addTaskP t) s) (mkE TaskAddition t)
  | Rem t => if SolverEventsModel.mem t (p_tr (s_pb s)) then notify (mapP (removeTaskP t) s) (mkE TaskRemoval t)
             else Done s
  | SetW t v => match find t (p_map (s_pb s)) with
                | Some _ => notify (mapP (setWeight t v) s) (mkE WeightChange t)
                | None => Done (mapP (setWeight t v) s)
                end
  | SetA t v => match find t (p_map (s_pb s)) with
                | Some _ => notify (mapP (setAniso t v) s) (mkE AnisotropicWeightChange t)
                | None => Done (mapP (setAniso t v) s)
                end
  | AssignW t v => Done (mapP (setWeight t v) s)
  | SetP t v => Done (mapP (setPrio t v) s)
  | Sub a e => notify (mapP (setEnv e) s) (mkE SubstitutionAddition a)
  | Env e => Done (mapP (setEnv e) s)
  | Solve => solve s
  end.
Definition init (pr w a : nat -> nat) (e : env) : state := mkS (mkP [] [] 0 pr w a e) None.
