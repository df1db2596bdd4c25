(* What C52 speaks about. *)
From Coq Require Import List Bool Arith.
Import ListNotations.
From Verif Require Import Base QueueModel QueueSpec PbModel.

(* How many times a task is in the problem after some calls, when it was there n times: once more for each call adding
   it, once less for each call removing it, whether or not the calls throw. *)
Fixpoint times (t : nat) (cs : list call) (n : nat) : nat :=
  match cs with
  | [] => n
  | c :: cs' => times t cs' (match c with
      | Add u | BaseAdd u => if u =? t then S n else n
      | Remove u | BaseRemove u => if u =? t then pred n else n
      | _ => n end)
  end.
(* Histories of a LinearizedControlProblem in which a task is only added when absent and no call throws. *)
Fixpoint proper (buildable : nat -> bool) (p : pb) (cs : list call) : Prop :=
  match cs with
  | [] => True
  | c :: cs' => match c with Add t => ~ In t (tr p) | BaseAdd _ | BaseRemove _ => False | _ => True end /\
      match step buildable p c with Done p' => proper buildable p' cs' | Threw _ => False | Undef => True end
  end.
(* The parts of a problem about its tasks agree. *)
Record consistent (p : pb) : Prop := {
  co_nodup : NoDup (tr p);
  co_tokens : forall t, In t (tokens p) <-> In t (tr p);
  co_cons : forall t, (exists c, lookup t (cons p) = Some c) <-> In t (tr p);
  co_inputs : forall c, In c (inputs p) <-> exists t, lookup t (cons p) = Some c;
  co_distinct : forall t u c, lookup t (cons p) = Some c -> lookup u (cons p) = Some c -> t = u }.
