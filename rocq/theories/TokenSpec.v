(* Specification for C34: living tokens and the pairs they form. *)
From Coq Require Import List Arith.
Import ListNotations.
From Verif Require Import Base TokenModel.
Local Open Scope nat_scope.

Record world := mkW { alive : nat -> Prop; paired : nat -> nat -> Prop }.
Definition rename (b a x : nat) : nat := if x =? b then a else x.
(* the pairs without those of a token *)
Definition without (P : nat -> nat -> Prop) (a : nat) : nat -> nat -> Prop := fun x y => P x y /\ x <> a /\ y <> a.
(* the token in b goes to a: the pairs of a disappear, those of b follow *)
Definition moved (P : nat -> nat -> Prop) (a b : nat) : nat -> nat -> Prop :=
  fun x y => exists x0 y0, without P a x0 y0 /\ x = rename b a x0 /\ y = rename b a y0.
Definition joined (P : nat -> nat -> Prop) (a b : nat) : nat -> nat -> Prop :=
  fun x y => P x y \/ (x = a /\ y = b) \/ (x = b /\ y = a).
(* What an operation should do, [h] giving the token of a handle. *)
Definition effect (hands : nat -> option (option nat)) (o : op) (w : world) : world :=
  match o with
  | New a => mkW (fun x => alive w x \/ x = a) (paired w)
  | MoveNew a b => mkW (fun x => alive w x \/ x = a) (moved (paired w) a b)
  | MoveAssign a b => mkW (alive w) (moved (paired w) a b)
  | Delete a => mkW (fun x => alive w x /\ x <> a) (without (paired w) a)
  | PairWith a b => mkW (alive w) (joined (paired w) a b)
  | MakeHandle _ _ | DropHandle _ => w
  | FromHandle a h => match hands h with Some (Some p) => mkW (fun x => alive w x \/ x = a) (joined (paired w) a p) | _ => w end
  | AssignHandle a h => match hands h with Some (Some p) => mkW (alive w) (joined (without (paired w) a) a p) | _ => w end
  end.
(* The world of a state. *)
Definition worldOf (s : state) : world := mkW (fun a => toks s a <> None) (fun a b => toks s a = Some (Some b)).
Definition same (w w' : world) : Prop := (forall a, alive w a <-> alive w' a) /\ (forall a b, paired w a b <-> paired w' a b).
(* Each token is paired with one other at most, which lives and is paired with it. *)
Definition consistent (w : world) : Prop :=
  forall a b, paired w a b -> a <> b /\ alive w a /\ alive w b /\ paired w b a /\ forall c, paired w a c -> c = b.

(* What the language and the interface ask of a call: tokens used live, tokens constructed are in
   free memory, a token is not paired with itself, and a handle is
   used while its token lives and is not paired, not on its own token. *)
Definition legal (s : state) (o : op) : Prop :=
  let live a := toks s a <> None in
  let free a := toks s a = None in
  match o with
  | New a => free a
  | MoveNew a b => free a /\ live b
  | MoveAssign a b => live a /\ live b
  | Delete a => live a
  | PairWith a b => live a /\ live b /\ a <> b
  | MakeHandle h a => live a /\ hands s h = None
  | FromHandle a h => free a /\ exists p, hands s h = Some (Some p) /\ toks s p = Some None
  | AssignHandle a h => live a /\ exists p, hands s h = Some (Some p) /\ toks s p = Some None /\ p <> a
  | DropHandle h => True
  end.
(* The states of legal histories; a call that throws leaves the state. *)
Inductive reachable : state -> Prop :=
| r_empty : reachable empty
| r_step s o s' : reachable s -> legal s o -> step s o = Ok s' -> reachable s'.
(* a and b exchanged *)
Definition exch (a b x : nat) : nat := if x =? a then b else if x =? b then a else x.
(* A run of a list of operations, without any condition. *)
Fixpoint run (s : state) (l : list op) : res state :=
  match l with [] => Ok s | o :: l' => do s1 <- step s o; run s1 l' end.
Fixpoint legals (s : state) (l : list op) : Prop :=
  match l with [] => True | o :: l' => legal s o /\ match step s o with Ok s1 => legals s1 l' | _ => False end end.
