(* What C85 speaks about. *)
From Coq Require Import List Bool Arith QArith.
Import ListNotations.
From Verif Require Import Base LxModel.
Local Open Scope nat_scope.

(* The last sizes are n, nObj, nEq, nIneq, and the answers since then, in order, are l. *)
Definition lastSize (ops : list lxop) (n nObj nEq nIneq : nat) (l : list answer) : Prop :=
  exists before, ops = before ++ Size n nObj nEq nIneq :: map LSolve l.
(* The answers of the library have the sizes it was last given. *)
Definition fits (n nEq nIneq : nat) (a : answer) : Prop := length (a_act0 a) = n /\ length (a_act1 a) = nEq + nIneq /\ length (a_x a) = n.
