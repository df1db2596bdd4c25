(* Model of the declarations a node makes: include/tvm/graph/abstract/Node.hpp, the data of
   include/tvm/graph/internal/AbstractNode.h:104-123, and the calls they make to the Logger
   (Node.hpp:11-25, Inputs.hpp:9-13).
   Updates, outputs and inputs are given by the integer value of their enumeration, nodes and sources by
   their address, update functions by a number.  The static checks of the types (static_assert) are not
   modelled.  Whether a class U enables an update or an output (UpdateStaticallyEnabled,
   OutputStaticallyEnabled) is an argument of the call, since the class may be given explicitly; so is
   whether the outputs of the sources are enabled (isOutputEnabled) at the time of the call. *)
From Coq Require Import List Bool Arith.
Import ListNotations.
From Verif Require Import Base GraphModel CallGraphModel InputsModel.
Local Open Scope nat_scope.

(* what is told to the logger: Logger.h:83-156, Logger.cpp:26-32 *)
Inductive logev :=
| EUpdate (n u f : nat)            (* registerUpdate: node, update, function *)
| EInput (n s i : nat)             (* addInput: node, source, input *)
| EOutputDep (n o u : nat)         (* addOutputDependency: node, output, update *)
| EInternalDep (n ud u : nat)      (* addInternalDependency: node, depending update, update *)
| EInputDep (n u s i : nat)        (* addInputDependency: node, update, source, input *)
| EDirectDep (n o s i : nat)       (* addDirectDependency: node, output, source, input *)
| EGraph (g n : nat).              (* addGraphOutput: call graph, inputs *)

(* updates_ (AbstractNode.h:113), the four dependency maps (AbstractNode.h:116-123), and the part inherited from Inputs *)
Record nst := mkNst { nUpd : nat -> option nat; nDeps : node; nInp : state }.
Definition nst0 : nst := mkNst (fun _ => None) (mkNode (fun _ => None) (fun _ => None) (fun _ => None) (fun _ => None)) empty.

(* what a call leaves: the node, what it told the logger, whether it threw *)
Definition nresult : Type := nst * list logev * bool.

(* the state after the first call goes to the second unless it threw *)
Definition andThen (r : nresult) (k : nst -> nresult) : nresult :=
  match r with
  | (st, ev, true) => (st, ev, true)
  | (st, ev, false) => match k st with (st', ev', t) => (st', ev ++ ev', t) end
  end.

Section Node.
Variable n : nat. (* the address of the node *)

(* registerUpdates(EnumT u, void (U::* fn)()), Node.hpp:47-65 *)
Definition registerUpdate (uen : nat -> bool) (st : nst) (u f : nat) : nresult :=
  if negb (uen u) then (st, [], true)
  else match nUpd st u with
       | Some _ => (st, [], true)
       | None => (mkNst (upd (nUpd st) u (Some f)) (nDeps st) (nInp st), [EUpdate n u f], false)
       end.
(* registerUpdates(EnumT u, void (U::* fn)(), Args... args), Node.hpp:36-45 *)
Fixpoint registerUpdates (uen : nat -> bool) (st : nst) (ufs : list (nat * nat)) : nresult :=
  match ufs with
  | [] => (st, [], false)
  | (u, f) :: ufs' => andThen (registerUpdate uen st u f) (fun st' => registerUpdates uen st' ufs')
  end.

Definition withDeps (st : nst) (d : node) : nst := mkNst (nUpd st) d (nInp st).

(* outputDependencies_[o].push_back(u): a missing entry starts empty *)
Definition pushAt (m : nat -> option (list nat)) (k v : nat) : nat -> option (list nat) :=
  upd m k (Some (match m k with Some l => l ++ [v] | None => [v] end)).

(* addOutputDependency(EnumO o, EnumU u), Node.hpp:67-90; nothing is asked about u *)
Definition addOutputDependency (oen : nat -> bool) (st : nst) (o u : nat) : nresult :=
  let d := nDeps st in
  if negb (oen o) then (st, [], true)
  else match dirDep d o with
       | Some _ => (st, [], true)
       | None => (withDeps st (mkNode (pushAt (outDep d) o u) (intDep d) (inDep d) (dirDep d)), [EOutputDep n o u], false)
       end.
(* addOutputDependency(std::initializer_list<EnumO> os, EnumU u), Node.hpp:92-100 *)
Fixpoint addOutputDependencies (oen : nat -> bool) (st : nst) (os : list nat) (u : nat) : nresult :=
  match os with
  | [] => (st, [], false)
  | o :: os' => andThen (addOutputDependency oen st o u) (fun st' => addOutputDependencies oen st' os' u)
  end.

(* addInternalDependency(EnumU1 uDependent, EnumU2 u), Node.hpp:102-125 *)
Definition addInternalDependency (uen : nat -> bool) (st : nst) (ud u : nat) : nresult :=
  let d := nDeps st in
  if negb (uen ud) then (st, [], true)
  else if negb (uen u) then (st, [], true)
  else (withDeps st (mkNode (outDep d) (pushAt (intDep d) ud u) (inDep d) (dirDep d)), [EInternalDep n ud u], false).

(* Inputs::addInput(T * source, EnumI i), Inputs.hpp:66-82: as InputsModel.addOne; the logger is told of new inputs only *)
Definition addInputOne (sen : nat -> nat -> bool) (st : nst) (s i : nat) : nresult :=
  match addOne sen (nInp st) s i with
  | (ip, true) => (mkNst (nUpd st) (nDeps st) ip, [], true)
  | (ip, false) =>
      let isNew := match inputs (nInp st) s with Some l => negb (smem i l) | None => true end in
      (mkNst (nUpd st) (nDeps st) ip, if isNew then [EInput n s i] else [], false)
  end.
(* Inputs::addInput(T & source, EnumI i, Args... args), Inputs.hpp:53-64 *)
Fixpoint addInputRef (sen : nat -> nat -> bool) (st : nst) (s : nat) (is : list nat) : nresult :=
  match is with
  | [] => (st, [], false)
  | i :: is' => andThen (addInputOne sen st s i) (fun st' => addInputRef sen st' s is')
  end.
(* Inputs::addInput(std::shared_ptr<T> source, ...), Inputs.hpp:46-51, when [sh] *)
Definition addInput (sh : bool) (sen : nat -> nat -> bool) (st : nst) (s : nat) (is : list nat) : nresult :=
  andThen (addInputRef sen st s is) (fun st' =>
    (if sh then mkNst (nUpd st') (nDeps st') (mkS (inputs (nInp st')) (upd (store (nInp st')) s true)) else st', [], false)).

(* the std::map<Outputs *, std::set<int>> of one update: insert i in the set of s *)
Fixpoint minsert (s i : nat) (l : list (nat * list nat)) : list (nat * list nat) :=
  match l with
  | [] => [(s, [i])]
  | (t, v) :: l' => if s =? t then (t, sinsert i v) :: l' else if s <? t then (s, [i]) :: l else (t, v) :: minsert s i l'
  end.
(* addInputDependency(EnumU u, S * source, EnumO i), Node.hpp:170-194 *)
Definition addInputDependency1 (st : nst) (u s i : nat) : nresult :=
  let d := nDeps st in
  let l := match inDep d u with Some l => minsert s i l | None => [(s, [i])] end in
  (withDeps st (mkNode (outDep d) (intDep d) (upd (inDep d) u (Some l)) (dirDep d)), [EInputDep n u s i], false).
(* addInputDependency(EnumU u, S * source, EnumO i, Args... args), Node.hpp:196-205 *)
Fixpoint addInputDependencyPtr (st : nst) (u s : nat) (is : list nat) : nresult :=
  match is with
  | [] => (st, [], false)
  | i :: is' => andThen (addInputDependency1 st u s i) (fun st' => addInputDependencyPtr st' u s is')
  end.
(* addInputDependency with a shared pointer (Node.hpp:141-151) or a reference (Node.hpp:153-168); the
   check is Node.hpp:127-139.  Only the first input is passed to addInput. *)
Definition addInputDependency (sh : bool) (uen : nat -> bool) (sen : nat -> nat -> bool) (st : nst) (u s : nat) (is : list nat) : nresult :=
  if negb (uen u) then (st, [], true)
  else andThen (addInput sh sen st s (firstn 1 is)) (fun st' => addInputDependencyPtr st' u s is).

(* checkAddDirectDependency, Node.hpp:207-233: true when it throws *)
Definition checkAddDirectDependency (oen : nat -> bool) (st : nst) (o : nat) : bool :=
  if negb (oen o) then true
  else match dirDep (nDeps st) o with
       | Some _ => true
       | None => match outDep (nDeps st) o with Some _ => true | None => false end
       end.
(* addDirectDependency with a shared pointer (Node.hpp:235-245) or a reference (Node.hpp:247-261), and
   with the pointer (Node.hpp:263-269) *)
Definition addDirectDependency (sh : bool) (oen : nat -> bool) (sen : nat -> nat -> bool) (st : nst) (o s i : nat) : nresult :=
  if checkAddDirectDependency oen st o then (st, [], true)
  else andThen (addInput sh sen st s [i]) (fun st' =>
    let d := nDeps st' in
    (withDeps st' (mkNode (outDep d) (intDep d) (inDep d) (upd (dirDep d) o (Some (s, i)))), [EDirectDep n o s i], false)).

(* the calls a node makes; for a call with a pack of arguments the list is not empty in C++ *)
Inductive nop :=
| NRegister (uen : nat -> bool) (ufs : list (nat * nat))
| NOutput (oen : nat -> bool) (os : list nat) (u : nat)
| NInternal (uen : nat -> bool) (ud u : nat)
| NInput (sh : bool) (uen : nat -> bool) (sen : nat -> nat -> bool) (u s : nat) (is : list nat)
| NDirect (sh : bool) (oen : nat -> bool) (sen : nat -> nat -> bool) (o s i : nat)
| NAddInput (sh : bool) (sen : nat -> nat -> bool) (s : nat) (is : list nat).

Definition nexec (st : nst) (o : nop) : nresult :=
  match o with
  | NRegister uen ufs => registerUpdates uen st ufs
  | NOutput oen os u => addOutputDependencies oen st os u
  | NInternal uen ud u => addInternalDependency uen st ud u
  | NInput sh uen sen u s is => addInputDependency sh uen sen st u s is
  | NDirect sh oen sen o s i => addDirectDependency sh oen sen st o s i
  | NAddInput sh sen s is => addInput sh sen st s is
  end.

(* a sequence of calls: one that throws is caught and the next ones are made *)
Fixpoint nrun (st : nst) (h : list nop) : nst * list logev :=
  match h with
  | [] => (st, [])
  | o :: h' => match nexec st o with (st', ev, _) => let (st'', ev') := nrun st' h' in (st'', ev ++ ev') end
  end.
End Node.

(* AbstractNode::update(int i), AbstractNode.h:104-109: the function that is run; UB when the assert fails *)
Definition runUpdate (st : nst) (u : nat) : res nat := match nUpd st u with Some f => Ok f | None => UB end.

(* Plan::execute (CallGraph.h:63-69) over the nodes of a network; UB for a call of an object that is not a node *)
Fixpoint executePlan (W : nat -> option nst) (p : list call) : res (list (nat * nat)) :=
  match p with
  | [] => Ok []
  | (s, u) :: p' =>
      match W s with
      | None => UB
      | Some st => do f <- runUpdate st u ; do r <- executePlan W p' ; Ok ((s, f) :: r)
      end
  end.
