(* Model of graph::internal::Inputs (include/tvm/graph/internal/Inputs.h, Inputs.hpp, src/graph/Inputs.cpp).
   A source and an output are given by numbers (the address, the value of the enumeration); the
   std::set<int> are lists sorted without duplicates.  The logger is not modelled. *)
From Coq Require Import List Bool Arith.
Import ListNotations.
Local Open Scope nat_scope.

Definition upd {A} (f : nat -> A) (i : nat) (a : A) : nat -> A := fun j => if j =? i then a else f j.

(* std::set<int>::insert *)
Fixpoint sinsert (i : nat) (l : list nat) : list nat :=
  match l with
  | [] => [i]
  | j :: l' => if i <? j then i :: l else if i =? j then l else j :: sinsert i l'
  end.
(* std::set<int>::erase *)
Definition serase (i : nat) (l : list nat) : list nat := filter (fun j => negb (j =? i)) l.
Definition smem (i : nat) (l : list nat) : bool := existsb (Nat.eqb i) l.
(* std::set<int> v{args...} *)
Definition sofList (l : list nat) : list nat := fold_right sinsert [] l.

(* inputs_ (None: no entry) and store_, Inputs.h:80-81; store_ has at most one pointer per source *)
Record state := mkS { inputs : nat -> option (list nat); store : nat -> bool }.
Definition empty : state := mkS (fun _ => None) (fun _ => false).

(* The result of a call: the state it leaves and whether it throws. *)
Definition result := (state * bool)%type.

(* addInput(T * source, EnumI i), Inputs.hpp:66-82; en is isOutputEnabled of the sources at the time of the call *)
Definition addOne (en : nat -> nat -> bool) (st : state) (s i : nat) : result :=
  if en s i then
    match inputs st s with
    | Some l => (mkS (upd (inputs st) s (Some (sinsert i l))) (store st), false)
    | None => (mkS (upd (inputs st) s (Some [i])) (store st), false)
    end
  else (st, true).

(* addInput(T & source, EnumI i, Args... args), Inputs.hpp:53-64 *)
Fixpoint addRef (en : nat -> nat -> bool) (st : state) (s : nat) (os : list nat) : result :=
  match os with
  | [] => (st, false)
  | i :: os' => match addOne en st s i with (st', false) => addRef en st' s os' | r => r end
  end.

(* addInput(std::shared_ptr<T> source, ...), Inputs.hpp:46-51 *)
Definition addShared (en : nat -> nat -> bool) (st : state) (s : nat) (os : list nat) : result :=
  match addRef en st s os with
  | (st', false) => (mkS (inputs st') (upd (store st') s true), false)
  | r => r
  end.

(* removeInput(Iterator it, Outputs * source), Inputs.cpp:18-27 *)
Definition removeEntry (st : state) (s : nat) : state := mkS (upd (inputs st) s None) (upd (store st) s false).

(* removeInput(T * source), Inputs.hpp:84-96 *)
Definition removeAll (st : state) (s : nat) : result :=
  match inputs st s with
  | None => (st, true)
  | Some _ => (removeEntry st s, false)
  end.

(* the loop of Inputs.hpp:111-115: the set left and whether it threw *)
Fixpoint eraseLoop (v l : list nat) : list nat * bool :=
  match v with
  | [] => (l, false)
  | i :: v' => if smem i l then eraseLoop v' (serase i l) else (l, true)
  end.

(* removeInput(T * source, Args... args), Inputs.hpp:98-121 *)
Definition removeSome (st : state) (s : nat) (os : list nat) : result :=
  match inputs st s with
  | None => (st, true)
  | Some l =>
      let (l', threw) := eraseLoop (sofList os) l in
      let st' := mkS (upd (inputs st) s (Some l')) (store st) in
      if threw then (st', true)
      else match l' with [] => (removeEntry st' s, false) | _ => (st', false) end
  end.

(* A call, with the enabled outputs of the sources; os is not empty in C++ (an empty list of outputs
   selects removeInput(T * )). *)
Inductive op :=
| AddRef (en : nat -> nat -> bool) (s : nat) (os : list nat)
| AddShared (en : nat -> nat -> bool) (s : nat) (os : list nat)
| RemoveAll (s : nat)
| RemoveSome (s : nat) (os : list nat).

Definition exec (st : state) (o : op) : result :=
  match o with
  | AddRef en s os => addRef en st s os
  | AddShared en s os => addShared en st s os
  | RemoveAll s => removeAll st s
  | RemoveSome s os => removeSome st s os
  end.

(* getInput, Inputs.hpp:123-136: None when the iterator is invalid *)
Definition getInput (st : state) (s : nat) : option (list nat) := inputs st s.
