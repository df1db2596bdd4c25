(* Model of the call graph: src/graph/CallGraph.cpp, include/tvm/graph/CallGraph.h and the
   dependency maps of include/tvm/graph/internal/AbstractNode.h:115-123.
   A source (abstract::Outputs pointer) is a [nat]; outputs and updates are [nat] ids.
   std::map lookups are functions to [option] (or association lists for the maps the code
   fills). Updates are only called, never looked into. Logging is left out
   (CallGraph.cpp:6,26). Recursive functions take [fuel]; running out of it (stack
   overflow) is [UB]. *)
Require Import List Arith Bool.
Require Import Verif.Base Verif.GraphModel.
Import ListNotations.

(* AbstractNode.h:115-123 *)
Record node := mkNode {
  outDep : nat -> option (list nat);                 (* outputDependencies_ *)
  intDep : nat -> option (list nat);                 (* internalDependencies_ *)
  inDep : nat -> option (list (nat * list nat));     (* inputDependencies_ *)
  dirDep : nat -> option (nat * nat)                 (* directDependencies_ *)
}.
(* None: an Outputs which is not a node (is_node_ false) *)
Definition net := nat -> option node.

(* CallGraph.h:39-44 *)
Definition call : Type := nat * nat.
Definition pair_eqb (a b : nat * nat) : bool := Nat.eqb (fst a) (fst b) && Nat.eqb (snd a) (snd b).
Fixpoint lookup {B} (l : list ((nat * nat) * B)) (k : nat * nat) : option B :=
  match l with [] => None | (k', b) :: r => if pair_eqb k' k then Some b else lookup r k end.

(* CallGraph.h:94-107; inputs_ only keeps the objects alive *)
Record cgraph := mkCG {
  callId_ : list (call * nat);
  calls_ : list call;
  dg : graph;
  visited_ : list ((nat * nat) * list nat)
}.
Definition cg_init : cgraph := mkCG [] [] empty_graph [].

(* CallGraph.cpp:53-56: callId.push_back(addCall({node, u})) for each u *)
Fixpoint outLoop (rec : call -> cgraph -> res (nat * cgraph)) (s : nat) (us : list nat) (st : cgraph)
  : res (list nat * cgraph) :=
  match us with
  | [] => Ok ([], st)
  | u :: us' =>
      do (i, st1) <- rec (s, u) st;
      do (is, st2) <- outLoop rec s us' st1;
      Ok (i :: is, st2)
  end.
(* addEdge(id, cId) for each cId (CallGraph.cpp:96-99) *)
Fixpoint edgeLoop (id : nat) (ids : list nat) (st : cgraph) : res cgraph :=
  match ids with
  | [] => Ok st
  | i :: ids' =>
      do (g, _) <- addEdge (dg st) id i;
      edgeLoop id ids' (mkCG (callId_ st) (calls_ st) g (visited_ st))
  end.
(* CallGraph.cpp:83-87 *)
Fixpoint intLoop (rec : call -> cgraph -> res (nat * cgraph)) (s id : nat) (us : list nat) (st : cgraph) : res cgraph :=
  match us with
  | [] => Ok st
  | u :: us' =>
      do (i, st1) <- rec (s, u) st;
      do st2 <- edgeLoop id [i] st1;
      intLoop rec s id us' st2
  end.
(* CallGraph.cpp:93-100 *)
Fixpoint oneInLoop (rec : nat -> nat -> cgraph -> res (list nat * cgraph)) (id s' : nat) (os : list nat) (st : cgraph) : res cgraph :=
  match os with
  | [] => Ok st
  | o :: os' =>
      do (ids, st1) <- rec s' o st;
      do st2 <- edgeLoop id ids st1;
      oneInLoop rec id s' os' st2
  end.
(* CallGraph.cpp:91-101 *)
Fixpoint inLoop (rec : nat -> nat -> cgraph -> res (list nat * cgraph)) (id : nat) (l : list (nat * list nat)) (st : cgraph) : res cgraph :=
  match l with
  | [] => Ok st
  | (s', os) :: l' => do st1 <- oneInLoop rec id s' os st; inLoop rec id l' st1
  end.
Definition listOf {A} (o : option (list A)) : list A := match o with Some l => l | None => [] end.

(* addOutput: CallGraph.cpp:40-70; addCall: CallGraph.cpp:72-104 *)
Fixpoint addOutput (fuel : nat) (N : net) (s o : nat) (st : cgraph) {struct fuel} : res (list nat * cgraph) :=
  match fuel with
  | O => UB
  | S f =>
      match lookup (visited_ st) (s, o) with
      | Some ids => Ok (ids, st)
      | None =>
          do (ids, st1) <-
            match N s with
            | None => Ok ([], st)
            | Some nd =>
                match outDep nd o with
                | Some us => outLoop (addCall f N) s us st
                | None =>
                    match dirDep nd o with
                    | Some (s', o') => addOutput f N s' o' st
                    | None => Ok ([], st)
                    end
                end
            end;
          Ok (ids, mkCG (callId_ st1) (calls_ st1) (dg st1) (((s, o), ids) :: visited_ st1))
      end
  end
with addCall (fuel : nat) (N : net) (c : call) (st : cgraph) {struct fuel} : res (nat * cgraph) :=
  match fuel with
  | O => UB
  | S f =>
      match lookup (callId_ st) c with
      | Some i => Ok (i, st)
      | None =>
          let (g, id) := addNode (dg st) in
          let st0 := mkCG ((c, id) :: callId_ st) (calls_ st ++ [c]) g (visited_ st) in
          match N (fst c) with
          | None => UB (* a call of an object which is not a node: excluded by the types *)
          | Some nd =>
              do st1 <- intLoop (addCall f N) (fst c) id (listOf (intDep nd (snd c))) st0;
              do st2 <- inLoop (addOutput f N) id (listOf (inDep nd (snd c))) st1;
              Ok (id, st2)
          end
      end
  end.

(* add: CallGraph.cpp:14-27; an Inputs object is the list of its (source, outputs) *)
Fixpoint addOuts (fuel : nat) (N : net) (s : nat) (os : list nat) (st : cgraph) : res cgraph :=
  match os with [] => Ok st | o :: os' => do (_, st1) <- addOutput fuel N s o st; addOuts fuel N s os' st1 end.
Fixpoint cg_add (fuel : nat) (N : net) (inputs : list (nat * list nat)) (st : cgraph) : res cgraph :=
  match inputs with
  | [] => Ok st
  | (s, os) :: l => do st1 <- addOuts fuel N s os st; cg_add fuel N l st1
  end.

(* Calls changing the graph: add, and clear (CallGraph.cpp:31-38) *)
Inductive cgop := CGAdd (inputs : list (nat * list nat)) | CGClear.
Fixpoint cgrun (fuel : nat) (N : net) (h : list cgop) (st : cgraph) : res cgraph :=
  match h with
  | [] => Ok st
  | CGAdd i :: h' => do st1 <- cg_add fuel N i st; cgrun fuel N h' st1
  | CGClear :: h' => cgrun fuel N h' cg_init
  end.

(* update() (CallGraph.cpp:29), that is Plan::build (CallGraph.cpp:106-115): the calls
   execute() makes, in order (CallGraph.h:63-69) *)
Fixpoint planOf (calls : list call) (l : list nat) : res (list call) :=
  match l with [] => Ok [] | i :: l' => do c <- nthR calls i; do r <- planOf calls l'; Ok (c :: r) end.
Definition cg_update (st : cgraph) : res (list call) :=
  do l <- order (dg st); planOf (calls_ st) l.
