(* Model of utils::generateUpdateGraph (include/tvm/utils/graph.h:26-35) and of the recursion over its
   arguments (include/tvm/utils/internal/graphDetails.h:46-79), on the models of Inputs and CallGraph.
   An argument is an object (a shared pointer, given by its address) or an output. *)
From Coq Require Import List Bool Arith.
Require Import Verif.Base Verif.CallGraphModel Verif.InputsModel.
Import ListNotations.
Local Open Scope nat_scope.

Inductive arg := Obj (s : nat) | Out (o : nat).

(* The elements of the std::unordered_map inputs_ (Inputs.h:32), in the order in which it lists the addresses. *)
Definition listing (addrs : list nat) (st : state) : list (nat * list nat) :=
  flat_map (fun s => match inputs st s with Some l => [(s, l)] | None => [] end) addrs.

(* The graph, and the Inputs that its member inputs_ keeps alive (CallGraph.h, CallGraph.cpp:16) *)
Record ugraph := mkU { u_graph : cgraph; u_users : list state }.
(* CallGraph::add, CallGraph.cpp:14-27 *)
Definition u_add (fuel : nat) (N : net) (addrs : list nat) (user : state) (g : ugraph) : res ugraph :=
  do st <- cg_add fuel N (listing addrs user) (u_graph g);
  Ok (mkU st (u_users g ++ [user])).

(* parseSourcesAndOutputs: an output (graphDetails.h:46-55), an object (60-70), the end (75-79).
   en is isOutputEnabled of the sources: addInput throws for the other outputs. *)
Fixpoint parse (fuel : nat) (N : net) (en : nat -> nat -> bool) (addrs : list nat) (g : ugraph) (user : state) (obj : nat) (args : list arg)
  : res ugraph :=
  match args with
  | Out o :: args' =>
      match addShared en user obj [o] with
      | (user', false) => parse fuel N en addrs g user' obj args'
      | (_, true) => Throw
      end
  | Obj obj2 :: args' =>
      do g' <- u_add fuel N addrs user g;
      parse fuel N en addrs g' empty obj2 args'
  | [] => u_add fuel N addrs user g
  end.

(* generateUpdateGraph, graph.h:26-35: the Inputs kept by the graph and the plan that execute() runs *)
Definition generate (fuel : nat) (N : net) (en : nat -> nat -> bool) (addrs : list nat) (obj : nat) (args : list arg)
  : res (list state * list call) :=
  do g <- parse fuel N en addrs (mkU cg_init []) empty obj args;
  do p <- cg_update (u_graph g);
  Ok (u_users g, p).

(* execute() (CallGraph.h:63-69): F c m is what the update c writes, from the memory m; each update has
   its own part of the memory. *)
Definition run {V} (F : call -> (call -> V) -> V) (p : list call) (m : call -> V) : call -> V :=
  fold_left (fun m c d => if pair_eqb c d then F c m else m d) p m.
