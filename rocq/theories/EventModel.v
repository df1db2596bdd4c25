(* Model of event::Source and event::Listener (src/event/Source.cpp, include/tvm/event/Source.h,
   src/event/Listener.cpp).  Listeners and events are numbers.  The code of process, given by the user,
   is a list of actions: registering, dropping the last reference to a listener, notifying again. *)
From Coq Require Import List Bool Arith.
Import ListNotations.
From Verif Require Import Base.
Local Open Scope nat_scope.

Definition upd {A} (f : nat -> A) (i : nat) (a : A) : nat -> A := fun j => if j =? i then a else f j.

Inductive action :=
| Regist (l e : nat)   (* regist(l, e), with a null pointer when l is not alive *)
| Destroy (l : nat)
| Notify (e : nat).

(* registrations_, the weak pointers in the order of registration; whether each listener is alive;
   the vectors being iterated upon by the calls of notify under way *)
Record state := mkS { regs : nat -> list nat; alive : nat -> bool; iter : list nat }.
Definition init : state := mkS (fun _ => []) (fun _ => true) [].

(* a call of process on a listener for an event, with the calls made meanwhile *)
Inductive delivery := Receive (l e : nat) (inner : list delivery).

(* regist, Source.cpp:13: push_back invalidates the iterators of a range-based for *)
Definition regist (s : state) (l e : nat) : res state :=
  if existsb (Nat.eqb e) (iter s) then UB else Ok (mkS (upd (regs s) e (regs s e ++ [l])) (alive s) (iter s)).

Section Handlers.
Variable process : nat -> nat -> list action.   (* Listener::process(evt) of each listener, Listener.cpp *)

(* for(const auto & u : list) u.lock()->receive(evt, *this), Source.cpp:17-19; go runs the actions of
   process.  lock() of a dead listener is null. *)
Fixpoint deliver (go : state -> list action -> res (state * list delivery)) (s : state) (e : nat) (ls : list nat) : res (state * list delivery) :=
  match ls with
  | [] => Ok (s, [])
  | l :: ls' =>
      if alive s l then
        do r <- go s (process l e);
        do r' <- deliver go (fst r) e ls';
        Ok (fst r', Receive l e (snd r) :: snd r')
      else UB
  end.

(* A list of actions; notify, Source.cpp:15-20.  fuel bounds the depth of nested notifications: when it
   is exhausted the stack overflows. *)
Fixpoint run (fuel : nat) (s : state) (h : list action) : res (state * list delivery) :=
  match fuel with
  | 0 => UB
  | Datatypes.S fuel' =>
      (fix actions (s : state) (h : list action) : res (state * list delivery) :=
         match h with
         | [] => Ok (s, [])
         | Regist l e :: h' => do s' <- regist s l e; actions s' h'
         | Destroy l :: h' => actions (mkS (regs s) (upd (alive s) l false) (iter s)) h'
         | Notify e :: h' =>
             do r <- deliver (run fuel') (mkS (regs s) (alive s) (e :: iter s)) e (regs s e);
             do r' <- actions (mkS (regs (fst r)) (alive (fst r)) (iter s)) h';
             Ok (fst r', snd r ++ snd r')
         end) s h
  end.
End Handlers.
