(* What generateUpdateGraph is asked for. *)
From Coq Require Import List Bool Arith Relations.
Require Import Verif.CallGraphModel Verif.CallGraphSpec Verif.InputsModel Verif.GuModel.
Import ListNotations.

(* the call generateUpdateGraph(obj, args...) asks for the output o of s: o comes after s, without an
   object in between *)
Definition asked (obj : nat) (args : list arg) (s o : nat) : Prop :=
  exists l os l', Obj obj :: args = l ++ Obj s :: map Out os ++ Out o :: l'.
(* the update c is needed for the outputs asked for *)
Definition needs (N : net) (obj : nat) (args : list arg) (c : call) : Prop :=
  exists s o c0, asked obj args s o /\ feeds N s o c0 /\ clos_refl_trans call (dep N) c0 c.
Definition cyclic (N : net) (obj : nat) (args : list arg) : Prop :=
  exists c d, needs N obj args c /\ dep N c d /\ clos_refl_trans call (dep N) d c.
(* U has all the updates needed: there are finitely many *)
Definition finitely (N : net) (obj : nat) (args : list arg) (U : list call) : Prop :=
  (forall s o c, asked obj args s o -> feeds N s o c -> In c U) /\ (forall c d, In c U -> dep N c d -> In d U).
(* the objects of the call, in any order *)
Definition lists_objects (obj : nat) (args : list arg) (addrs : list nat) : Prop :=
  NoDup addrs /\ forall s, In (Obj s) (Obj obj :: args) -> In s addrs.
(* an update reads what the updates it depends on have written (and the variables) *)
Definition reads_deps {V} (N : net) (F : call -> (call -> V) -> V) : Prop :=
  forall c m m', (forall d, dep N c d -> m d = m' d) -> F c m = F c m'.
(* the results of the updates in C are up to date *)
Definition up_to_date {V} (F : call -> (call -> V) -> V) (C : call -> Prop) (m : call -> V) : Prop :=
  forall c, C c -> m c = F c m.
