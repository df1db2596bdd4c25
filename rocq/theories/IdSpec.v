(* What C44 speaks about. *)
From Coq Require Import List Bool Arith ZArith.
Import ListNotations.
From Verif Require Import IdModel.
Local Open Scope Z_scope.

(* The events es can happen in this order from the beginning, lead to s, and outs are the threads
   that ended constructors, with the ids given, in this order. *)
Definition history (es : list event) (s : state) (outs : list (nat * Z)) : Prop := run init es = Next s outs.
(* The object at a lives and its id() is i. *)
Definition hasId (s : state) (a : nat) (i : Z) : Prop := objs s a = Live i.
(* number of constructors entered *)
Definition entered (e : event) : bool := match e with Start _ _ => true | _ => false end.
Definition creations (es : list event) : Z := Z.of_nat (length (filter entered es)).
(* where the id of the object at a is after e; None when it is lost *)
Definition follow (e : event) (a : nat) : option nat :=
  match e with
  | MoveNew b c => if Nat.eqb c a then Some b else Some a
  | MoveAssign b c => if Nat.eqb c a then (if Nat.eqb b a then None else Some b) else if Nat.eqb b a then None else Some a
  | Delete b => if Nat.eqb b a then None else Some a
  | _ => Some a
  end.

(* Clock: a history is a list of gaps, the numbers of ticks between successive updates; an update is
   due when there was a tick since the previous one. *)
Definition gap (n : nat) : list tick := repeat Advance n ++ [Update].
Definition due (gaps : list nat) : nat := length (filter (fun n => negb (Nat.eqb n 0)) gaps).
