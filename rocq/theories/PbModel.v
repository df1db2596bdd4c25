(* tvm::ControlProblem and tvm::LinearizedControlProblem (src/ControlProblem.cpp, src/LinearizedControlProblem.cpp), with
   the storage of substitutions (src/hint/Substitutions.cpp:27-56, 190-202).  Tasks are TaskWithRequirements objects and
   constraints are LinearizedTaskConstraint objects, both identified by a number.  Left out: what tasks, constraints and
   updates compute (C33, C38-C41), the graph of dependencies between substitutions, and the outputs added to the updater
   for a constraint (one input for each constraint). *)
From Coq Require Import List Bool Arith.
Import ListNotations.
From Verif Require Import Base QueueModel.

(* A hint::Substitution: its constraints and the number of variables substituted.  isSimple, src/hint/Substitution.cpp:68. *)
Record subst := mkSub { s_cstr : list nat; s_nvars : nat }.
Definition isSimple (s : subst) : bool := (length (s_cstr s) =? 1) && (s_nvars s =? 1).
(* The addresses of the objects: tasks, substitutions of the user, and elements of the vector of substitutions. *)
Definition addrTask (t : nat) : nat := 3 * t.
Definition addrUser (n : nat) : nat := 3 * n + 1.
Definition addrSlot (i : nat) : nat := 3 * i + 2.

(* tr_, the keys of callbackTokens_, constraints_, the constraints in the updater, substitutions_, finalized_, and the
   event queues of computationData_; next is the number of the next constraint. *)
Record pb := mkPb { tr : list nat; tokens : list nat; cons : list (nat * nat); inputs : list nat; subs : list subst;
  fin : bool; queues : list (list event); next : nat }.
Definition empty : pb := mkPb [] [] [] [] [] false [] 0.
(* A call ends, throws (keeping what was done) or is undefined. *)
Inductive outcome := Done (p : pb) | Threw (p : pb) | Undef.
Definition andThen (r : outcome) (f : pb -> outcome) : outcome := match r with Done p => f p | e => e end.

(* notify, ControlProblem.cpp:65-71. *)
Fixpoint notifyAll (qs : list (list event)) (e : event) : res (list (list event)) :=
  match qs with [] => Ok [] | q :: r => do q' <- addEvent q e; do r' <- notifyAll r e; Ok (q' :: r') end.
Definition notify (p : pb) (e : event) : outcome :=
  match notifyAll (queues p) e with Ok qs => Done (mkPb (tr p) (tokens p) (cons p) (inputs p) (subs p) (fin p) qs (next p)) | _ => Undef end.

Definition without (t : nat) (l : list nat) : list nat := filter (fun u => negb (u =? t)) l.
Fixpoint eraseFirst (t : nat) (l : list nat) : list nat := match l with [] => [] | u :: r => if u =? t then r else u :: eraseFirst t r end.
Definition setFin (p : pb) (b : bool) : pb := mkPb (tr p) (tokens p) (cons p) (inputs p) (subs p) b (queues p) (next p).
(* ControlProblem::add(tr), lines 19-25; addCallBackToTask, 73-86: the entry of the task is replaced. *)
Definition baseAdd (t : nat) (p : pb) : outcome :=
  andThen (notify (mkPb (tr p ++ [t]) (without t (tokens p) ++ [t]) (cons p) (inputs p) (subs p) (fin p) (queues p) (next p)) (mkE TaskAddition (addrTask t)))
    (fun p1 => Done (setFin p1 false)).
(* ControlProblem::remove(tr), lines 27-38. *)
Definition baseRemove (t : nat) (p : pb) : outcome :=
  if existsb (Nat.eqb t) (tr p) then
    andThen (notify (mkPb (eraseFirst t (tr p)) (tokens p) (cons p) (inputs p) (subs p) (fin p) (queues p) (next p)) (mkE TaskRemoval (addrTask t)))
      (fun p1 => Done (mkPb (tr p1) (without t (tokens p1)) (cons p1) (inputs p1) (subs p1) false (queues p1) (next p1)))
  else Done p.

Definition lookup (t : nat) (m : list (nat * nat)) : option nat := option_map snd (find (fun e => fst e =? t) m).
Definition drop (t : nat) (m : list (nat * nat)) : list (nat * nat) := filter (fun e => negb (fst e =? t)) m.
(* LinearizedControlProblem::add(tr), lines 26-58.  buildable t: the constructor of LinearizedTaskConstraint does not
   throw (src/constraint/LinearizedTaskConstraint.cpp:15-100). *)
Definition add (buildable : nat -> bool) (t : nat) (p : pb) : outcome :=
  andThen (baseAdd t p) (fun p1 =>
    if buildable t then Done (mkPb (tr p1) (tokens p1) ((t, next p1) :: drop t (cons p1)) (inputs p1 ++ [next p1]) (subs p1) (fin p1) (queues p1) (S (next p1)))
    else Threw p1).
(* add(const Substitution & s), lines 73-78, and Substitutions::add: a copy is stored.  n is the user's object. *)
Definition addSub (n : nat) (s : subst) (p : pb) : outcome :=
  andThen (notify (mkPb (tr p) (tokens p) (cons p) (inputs p) (subs p ++ [s]) (fin p) (queues p) (next p)) (mkE SubstitutionAddition (addrUser n)))
    (fun p1 => Done (setFin p1 false)).
(* remove(const Substitution & s), lines 80-85, and Substitutions::remove (Substitutions.cpp:46-54), which compares
   addresses: s is an object of the user or the element i of the vector. *)
Inductive sref := User (n : nat) | Slot (i : nat).
Definition addrSub (r : sref) : nat := match r with User n => addrUser n | Slot i => addrSlot i end.
Definition removeSub (r : sref) (p : pb) : outcome :=
  let l := match r with User _ => subs p | Slot i => firstn i (subs p) ++ skipn (S i) (subs p) end in
  andThen (notify (mkPb (tr p) (tokens p) (cons p) (inputs p) l (fin p) (queues p) (next p)) (mkE SubstitutionRemoval (addrSub r)))
    (fun p1 => Done (setFin p1 false)).
(* getSubstitutionFor (Substitutions.cpp:190-202): the index of the first substitution with the constraint. *)
Fixpoint substFor (c : nat) (l : list subst) (i : nat) : option (nat * subst) :=
  match l with [] => None | s :: r => if existsb (Nat.eqb c) (s_cstr s) then Some (i, s) else substFor c r (S i) end.
(* removeSubstitutionFor, lines 89-106. *)
Definition removeSubstitutionFor (c : nat) (p : pb) : outcome :=
  match substFor c (subs p) 0 with
  | None => Done p
  | Some (i, s) => if isSimple s then removeSub (Slot i) p else Threw p
  end.
(* LinearizedControlProblem::remove(tr), lines 60-71. *)
Definition remove (t : nat) (p : pb) : outcome :=
  andThen (baseRemove t p) (fun p1 =>
    match lookup t (cons p1) with
    | None => Done p1
    | Some c => andThen (removeSubstitutionFor c p1) (fun p2 =>
        Done (mkPb (tr p2) (tokens p2) (drop t (cons p2)) (without c (inputs p2)) (subs p2) (fin p2) (queues p2) (next p2)))
    end).
(* The callbacks of a task, ControlProblem.cpp:78-82: called when the user changes a weight. *)
Definition weight (k : etype) (t : nat) (p : pb) : outcome := if existsb (Nat.eqb t) (tokens p) then notify p (mkE k (addrTask t)) else Done p.

(* BaseAdd and BaseRemove: add and remove are not virtual, so that these are the calls through a ControlProblem.
   NewData: a resolution scheme is used for the first time (scheme/internal/helpers.hpp:14-30).  Process i: the scheme
   processes its events.  Finalize: ControlProblem.cpp:51-59. *)
Inductive call := Add (t : nat) | Remove (t : nat) | BaseAdd (t : nat) | BaseRemove (t : nat) | AddSub (n : nat) (s : subst) | RemoveSub (r : sref)
  | Weight (t : nat) | Aniso (t : nat) | NewData | Process (i : nat) | Finalize.
Definition setQueues (p : pb) (qs : list (list event)) : pb := mkPb (tr p) (tokens p) (cons p) (inputs p) (subs p) (fin p) qs (next p).
Definition step (buildable : nat -> bool) (p : pb) (c : call) : outcome :=
  match c with
  | Add t => add buildable t p
  | Remove t => remove t p
  | BaseAdd t => baseAdd t p
  | BaseRemove t => baseRemove t p
  | AddSub n s => addSub n s p
  | RemoveSub r => removeSub r p
  | Weight t => weight WeightChange t p
  | Aniso t => weight AnisotropicWeightChange t p
  | NewData => Done (setQueues p (queues p ++ [[]]))
  | Process i => Done (setQueues p (firstn i (queues p) ++ match skipn i (queues p) with [] => [] | _ :: r => [] :: r end))
  | Finalize => Done (setFin p true)
  end.
(* A history: the caller goes on after an exception. *)
Fixpoint run (buildable : nat -> bool) (p : pb) (cs : list call) : res pb :=
  match cs with
  | [] => Ok p
  | c :: cs' => match step buildable p c with Done p' | Threw p' => run buildable p' cs' | Undef => UB end
  end.
