(* Model of the queue of problem definition events
   (include/tvm/scheme/internal/ProblemComputationData.h, ProblemDefinitionEvent.h). *)
From Coq Require Import List Bool Arith.
Import ListNotations.
From Verif Require Import Base.

(* ProblemDefinitionEvent::Type, ProblemDefinitionEvent.h:21-29 *)
Inductive etype := WeightChange | AnisotropicWeightChange | TaskAddition | TaskRemoval
                 | SubstitutionAddition | SubstitutionRemoval.
Definition isRemoval (t : etype) : bool := match t with TaskRemoval => true | _ => false end.
Definition isAddition (t : etype) : bool := match t with TaskAddition => true | _ => false end.

(* ProblemDefinitionEvent, ProblemDefinitionEvent.h:54-55: the emitter is a void pointer, hence
   an address; a task and a substitution may only be told apart by the type of the event. *)
Record event := mkE { e_type : etype; e_emitter : nat }.

(* The loop of addEvent, ProblemComputationData.h:128-145, on the queue with the flag [add].
   The violated assertion "The task was added twice" (136) is UB. *)
Fixpoint purge (t : nat) (q : list event) (add : bool) : res (list event * bool) :=
  match q with
  | [] => Ok ([], add)
  | e :: q' =>
      if (e_emitter e =? t) && negb (isRemoval (e_type e)) then
        if isAddition (e_type e) then if add then purge t q' false else UB
        else purge t q' add
      else do r <- purge t q' add; Ok (e :: fst r, snd r)
  end.

(* addEvent, ProblemComputationData.h:118-151 *)
Definition addEvent (q : list event) (e : event) : res (list event) :=
  if isRemoval (e_type e) then
    do r <- purge (e_emitter e) q true;
    Ok (if snd r then fst r ++ [e] else fst r)
  else Ok (q ++ [e]).

(* A history of calls to addEvent on an empty queue *)
Fixpoint addEvents (q : list event) (l : list event) : res (list event) :=
  match l with [] => Ok q | e :: l' => do q' <- addEvent q e; addEvents q' l' end.
Definition queue (l : list event) : res (list event) := addEvents [] l.
