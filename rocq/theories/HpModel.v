(* Model of the resolution of a changing problem by scheme::HierarchicalLeastSquares (src/scheme/HierarchicalLeastSquares.cpp),
   over the problems of PbModel.v and the event queues of QueueModel.v.  What a scheme has built is given by the constraint and
   the weights (scalar, anisotropic) of each task and by the substitutions at the time of processProblem; how the matrices are
   filled is the subject of C48 and C22-C25.  The abilities (C31) are taken for granted, and finalize does not throw.  The
   schemes are numbered in the order of their first use on the problem. *)
From Coq Require Import List Bool Arith QArith.
Import ListNotations.
From Verif Require Import Base QueueModel PbModel.
Local Open Scope nat_scope.

Definition weights := (Q * list Q)%type.
Record snap := mkSnap { sn_task : nat -> option (nat * weights); sn_subs : list subst }.
(* the problem, the weights in the requirements of the tasks, and what each scheme has built *)
Record hp := mkHp { h_pb : pb; h_w : nat -> weights; h_built : list snap }.
Definition hempty : hp := mkHp empty (fun _ => (1%Q, [])) [].
Inductive houtcome := HDone (s : hp) (r : option snap) | HThrew (s : hp) | HUndef.

(* processProblem, lines 107-191: the constraints of the problem with their requirements, and the substitutions *)
Definition buildOf (p : pb) (w : nat -> weights) : snap := mkSnap (fun t => option_map (fun c => (c, w t)) (lookup t (cons p))) (subs p).
Definition setAt {A} (l : list A) (i : nat) (x : A) : list A := firstn i l ++ match skipn i l with [] => [] | _ :: r => x :: r end.

(* lines 54-61 *)
Definition rebuilds (q : list event) : bool := existsb (fun e => match e_type e with SubstitutionAddition | SubstitutionRemoval => true | _ => false end) q.
(* the loop, lines 62-86: the events left when it throws.  Changes of weights only go to the local SolverEvents (67-76), unless the
   task has no constraint, in which case constraints_.at throws; addTask and removeTask (193-203) throw.  When no event is left,
   HierarchicalLeastSquareSolver::process (src/solver/HierarchicalLeastSquareSolver.cpp:174-175), called line 89, throws. *)
Fixpoint leftover (m : list (nat * nat)) (q : list event) : list event :=
  match q with
  | [] => []
  | e :: q' =>
      match e_type e with
      | WeightChange | AnisotropicWeightChange => if existsb (fun c => addrTask (fst c) =? e_emitter e) m then leftover m q' else q'
      | _ => q'
      end
  end.
(* solve_, lines 25-38: with None the variables are set to zero *)
Definition solve_ (p : pb) (s : snap) : option snap := if length (subs p) <? length (tr p) then Some s else None.
(* ResolutionScheme::solve (include/tvm/scheme/abstract/ResolutionScheme.h:72-81) with getComputationData
   (include/tvm/scheme/internal/helpers.hpp:14-29), createComputationData_ (lines 92-99), updateComputationData_ (lines 40-90) and
   resetComputationData (lines 101-105; LinearizedProblemComputationData.h:58-63) *)
Definition solve (i : nat) (s : hp) : houtcome :=
  let p := setFin (h_pb s) true in
  match nth_error (queues p) i, nth_error (h_built s) i with
  | Some [], Some sn => HDone (mkHp p (h_w s) (h_built s)) (solve_ p sn)
  | Some q, Some sn =>
      if rebuilds q then let sn' := buildOf p (h_w s) in HDone (mkHp (setQueues p (setAt (queues p) i [])) (h_w s) (setAt (h_built s) i sn')) (solve_ p sn')
      else HThrew (mkHp (setQueues p (setAt (queues p) i (leftover (cons p) q))) (h_w s) (h_built s))
  | _, _ => let sn' := buildOf p (h_w s) in HDone (mkHp (setQueues p (queues p ++ [[]])) (h_w s) (h_built s ++ [sn'])) (solve_ p sn')
  end.

(* The calls: a task is added with its weights.  The weights are changed by the operators of the requirements that run the
   callbacks (C71). *)
Inductive hop := UAdd (t : nat) (w : weights) | URemove (t : nat) | UAddSub (n : nat) (s : subst) | URemoveSub (r : sref)
  | UWeight (t : nat) (x : Q) | UAniso (t : nat) (x : list Q) | USolve (i : nat).
Definition setW (w : nat -> weights) (t : nat) (x : weights) : nat -> weights := fun u => if u =? t then x else w u.
Definition onPb (s : hp) (w : nat -> weights) (r : outcome) : houtcome :=
  match r with Done p => HDone (mkHp p w (h_built s)) None | Threw p => HThrew (mkHp p w (h_built s)) | Undef => HUndef end.
Definition hstep (b : nat -> bool) (s : hp) (o : hop) : houtcome :=
  match o with
  | UAdd t w => onPb s (setW (h_w s) t w) (step b (h_pb s) (Add t))
  | URemove t => onPb s (h_w s) (step b (h_pb s) (Remove t))
  | UAddSub n u => onPb s (h_w s) (step b (h_pb s) (AddSub n u))
  | URemoveSub r => onPb s (h_w s) (step b (h_pb s) (RemoveSub r))
  | UWeight t x => onPb s (setW (h_w s) t (x, snd (h_w s t))) (step b (h_pb s) (Weight t))
  | UAniso t x => onPb s (setW (h_w s) t (fst (h_w s t), x)) (step b (h_pb s) (Aniso t))
  | USolve i => solve i s
  end.
(* A history: the caller goes on after an exception. *)
Fixpoint hrun (b : nat -> bool) (s : hp) (ops : list hop) : res hp :=
  match ops with
  | [] => Ok s
  | o :: ops => match hstep b s o with HDone s' _ | HThrew s' => hrun b s' ops | HUndef => UB end
  end.
