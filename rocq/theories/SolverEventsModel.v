(* Model of solver::internal::SolverEvents (include/tvm/solver/internal/SolverEvents.h).
   Constraints and variables are compared by their shared pointers: a pointer is a nat. *)
From Coq Require Import List Bool Arith.
Import ListNotations.

(* std::find then erase: only the first occurrence (SolverEvents.h:120-136, 150-160) *)
Fixpoint eraseFirst (c : nat) (l : list nat) : list nat :=
  match l with
  | [] => []
  | d :: l' => if c =? d then l' else d :: eraseFirst c l'
  end.
Definition mem (c : nat) (l : list nat) : bool := existsb (Nat.eqb c) l.

(* struct WeightEvent, SolverEvents.h:16-21 *)
Record wevent := mkW { w_c : nat; w_scalar : bool; w_vector : bool }.
(* struct Objective, SolverEvents.h:23-28: the pointer of the constraint, and the pair
   (requirements, scalarizationWeight) as an opaque payload *)
Record objective := mkO { o_c : nat; o_data : nat }.

(* the data members, SolverEvents.h:69-80 *)
Record se := mkSE {
  weightEvents : list wevent;
  addedC : list nat; addedB : list nat; addedO : list objective;
  removedC : list nat; removedB : list nat; removedO : list nat;
  addedV : list nat; removedV : list nat; hidden : bool }.
Definition empty : se := mkSE [] [] [] [] [] [] [] [] [] false.

(* addIfPair, SolverEvents.h:150-160: returns the new addVec, the new removeVec and notFound *)
Definition addIfPair (c : nat) (addVec removeVec : list nat) : list nat * list nat * bool :=
  if mem c removeVec then (addVec, eraseFirst c removeVec, false)
  else (addVec ++ [c], removeVec, true).

(* the loops of addScalarWeightEvent and addVectorWeightEvent, SolverEvents.h:83-109 *)
Fixpoint touch (sc vc : bool) (c : nat) (l : list wevent) : list wevent :=
  match l with
  | [] => [mkW c sc vc]
  | e :: l' => if w_c e =? c then mkW (w_c e) (sc || w_scalar e) (vc || w_vector e) :: l'
               else e :: touch sc vc c l'
  end.
Definition addScalarWeightEvent (c : nat) (s : se) : se :=
  mkSE (touch true false c (weightEvents s)) (addedC s) (addedB s) (addedO s) (removedC s) (removedB s)
       (removedO s) (addedV s) (removedV s) (hidden s).
Definition addVectorWeightEvent (c : nat) (s : se) : se :=
  mkSE (touch false true c (weightEvents s)) (addedC s) (addedB s) (addedO s) (removedC s) (removedB s)
       (removedO s) (addedV s) (removedV s) (hidden s).

(* SolverEvents.h:111-114 *)
Definition addConstraint (c : nat) (s : se) : se :=
  let '(a, r, _) := addIfPair c (addedC s) (removedC s) in
  mkSE (weightEvents s) a (addedB s) (addedO s) r (removedB s) (removedO s) (addedV s) (removedV s) (hidden s).
Definition removeConstraint (c : nat) (s : se) : se :=
  let '(r, a, _) := addIfPair c (removedC s) (addedC s) in
  mkSE (weightEvents s) a (addedB s) (addedO s) r (removedB s) (removedO s) (addedV s) (removedV s) (hidden s).
(* SolverEvents.h:116-118 *)
Definition addBound (c : nat) (s : se) : se :=
  let '(a, r, _) := addIfPair c (addedB s) (removedB s) in
  mkSE (weightEvents s) (addedC s) a (addedO s) (removedC s) r (removedO s) (addedV s) (removedV s) (hidden s).
Definition removeBound (c : nat) (s : se) : se :=
  let '(r, a, _) := addIfPair c (removedB s) (addedB s) in
  mkSE (weightEvents s) (addedC s) a (addedO s) (removedC s) r (removedO s) (addedV s) (removedV s) (hidden s).

(* addObjective, SolverEvents.h:120-127 *)
Definition addObjective (o : objective) (s : se) : se :=
  if mem (o_c o) (removedO s) then
    mkSE (weightEvents s) (addedC s) (addedB s) (addedO s) (removedC s) (removedB s)
         (eraseFirst (o_c o) (removedO s)) (addedV s) (removedV s) (hidden s)
  else
    mkSE (weightEvents s) (addedC s) (addedB s) (addedO s ++ [o]) (removedC s) (removedB s)
         (removedO s) (addedV s) (removedV s) (hidden s).

Fixpoint eraseFirstO (c : nat) (l : list objective) : list objective :=
  match l with
  | [] => []
  | d :: l' => if o_c d =? c then l' else d :: eraseFirstO c l'
  end.
(* removeObjective, SolverEvents.h:129-136 *)
Definition removeObjective (c : nat) (s : se) : se :=
  if mem c (map o_c (addedO s)) then
    mkSE (weightEvents s) (addedC s) (addedB s) (eraseFirstO c (addedO s)) (removedC s) (removedB s)
         (removedO s) (addedV s) (removedV s) (hidden s)
  else
    mkSE (weightEvents s) (addedC s) (addedB s) (addedO s) (removedC s) (removedB s)
         (removedO s ++ [c]) (addedV s) (removedV s) (hidden s).

(* addVariable and removeVariable, SolverEvents.h:138-148 *)
Definition addVariable (v : nat) (s : se) : se :=
  let '(a, r, nf) := addIfPair v (addedV s) (removedV s) in
  mkSE (weightEvents s) (addedC s) (addedB s) (addedO s) (removedC s) (removedB s) (removedO s)
       a r (if nf then hidden s else true).
Definition removeVariable (v : nat) (s : se) : se :=
  let '(r, a, nf) := addIfPair v (removedV s) (addedV s) in
  mkSE (weightEvents s) (addedC s) (addedB s) (addedO s) (removedC s) (removedB s) (removedO s)
       a r (if nf then hidden s else true).

(* LeastSquareSolver::updateVariables, src/solver/LeastSquareSolver.cpp:327-328 *)
Definition isNil {A} (l : list A) : bool := match l with [] => true | _ => false end.
Definition variablesChanged (s : se) : bool :=
  negb (isNil (removedV s) && isNil (addedV s)) || hidden s.

(* The calls *)
Inductive call :=
| AddC (c : nat) | RemC (c : nat) | AddB (c : nat) | RemB (c : nat)
| AddO (o : objective) | RemO (c : nat) | AddV (v : nat) | RemV (v : nat)
| ScalarW (c : nat) | VectorW (c : nat).
Definition run1 (s : se) (c : call) : se :=
  match c with
  | AddC c => addConstraint c s | RemC c => removeConstraint c s
  | AddB c => addBound c s | RemB c => removeBound c s
  | AddO o => addObjective o s | RemO c => removeObjective c s
  | AddV v => addVariable v s | RemV v => removeVariable v s
  | ScalarW c => addScalarWeightEvent c s | VectorW c => addVectorWeightEvent c s
  end.
Definition run (l : list call) : se := fold_left run1 l empty.
