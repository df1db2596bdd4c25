(* What C68 speaks about: the calls a node made that took effect, and what they declare. *)
From Coq Require Import List Bool Arith.
Import ListNotations.
From Verif Require Import Base CallGraphModel InputsModel InputsSpec NdModel.
Local Open Scope nat_scope.

(* [o'] is the call [o] for fewer arguments; for an input given by a shared pointer, without sharing. *)
Inductive shorter : nop -> nop -> Prop :=
| sh_register uen l1 x l2 : shorter (NRegister uen l1) (NRegister uen (l1 ++ x :: l2))
| sh_output oen l1 x l2 u : shorter (NOutput oen l1 u) (NOutput oen (l1 ++ x :: l2) u)
| sh_addInput sh sen s l1 x l2 : shorter (NAddInput false sen s l1) (NAddInput sh sen s (l1 ++ x :: l2)).
(* calls that have an effect as a whole or none *)
Definition oneShot (o : nop) : Prop := match o with NRegister _ _ | NOutput _ _ _ | NAddInput _ _ _ _ => False | _ => True end.

(* [a]: the calls of [h] that returned, and for those that threw the part that took effect. *)
Inductive made (n : nat) : list nop -> nst -> list logev -> list nop -> Prop :=
| made0 : made n [] nst0 [] []
| made_returned h st ev a o st' ev' : made n h st ev a -> nexec n st o = (st', ev', false) -> made n (h ++ [o]) st' (ev ++ ev') (a ++ [o])
| made_threw_part h st ev a o o' st' ev' : made n h st ev a -> nexec n st o = (st', ev', true) -> shorter o' o ->
    nexec n st o' = (st', ev', false) -> made n (h ++ [o]) st' (ev ++ ev') (a ++ [o'])
| made_threw_none h st ev a o : made n h st ev a -> nexec n st o = (st, [], true) -> oneShot o -> made n (h ++ [o]) st ev a.

(* what calls declare *)
Definition registers (a : list nop) (u f : nat) : Prop := exists uen ufs, In (NRegister uen ufs) a /\ In (u, f) ufs.
Definition forwards (a : list nop) (o s i : nat) : Prop := exists sh oen sen, In (NDirect sh oen sen o s i) a.
Definition usesInput (a : list nop) (u s i : nat) : Prop := exists sh uen sen is, In (NInput sh uen sen u s is) a /\ In i is.
(* the updates given for output o, in order *)
Definition updatesFor (o : nat) (c : nop) : list nat := match c with NOutput _ os u => map (fun _ => u) (filter (Nat.eqb o) os) | _ => [] end.
Definition updatesBefore (u : nat) (c : nop) : list nat := match c with NInternal _ ud u' => if ud =? u then [u'] else [] | _ => [] end.
Definition hasUpd (a : list nop) (u : nat) : Prop := exists f, registers a u f.
Definition hasDirect (a : list nop) (o : nat) : Prop := exists s i, forwards a o s i.
Definition hasOutDep (a : list nop) (o : nat) : Prop := exists oen os u, In (NOutput oen os u) a /\ In o os.
(* the inputs passed to addInput *)
Definition takes (a : list nop) (s i : nat) : Prop :=
  (exists sh sen is, In (NAddInput sh sen s is) a /\ In i is) \/
  (exists sh uen sen u is, In (NInput sh uen sen u s (i :: is)) a) \/
  (exists sh oen sen o, In (NDirect sh oen sen o s i) a).
(* the sources given by shared pointers *)
Definition shares (c : nop) (s : nat) : Prop :=
  match c with NAddInput sh _ s' _ | NInput sh _ _ _ s' _ | NDirect sh _ _ _ s' _ => sh = true /\ s' = s | _ => False end.
(* the node keeps the source alive *)
Definition alive (st : nst) (s : nat) : Prop := store (nInp st) s = true.

(* what the logger is told, but for the inputs *)
Definition isInput (e : logev) : bool := match e with EInput _ _ _ => true | _ => false end.
Definition notInput (e : logev) : bool := negb (isInput e).
Definition declarations (n : nat) (c : nop) : list logev :=
  match c with
  | NRegister _ ufs => map (fun p => EUpdate n (fst p) (snd p)) ufs
  | NOutput _ os u => map (fun o => EOutputDep n o u) os
  | NInternal _ ud u => [EInternalDep n ud u]
  | NInput _ _ _ u s is => map (fun i => EInputDep n u s i) is
  | NDirect _ _ _ o s i => [EDirectDep n o s i]
  | NAddInput _ _ _ _ => []
  end.

(* observation of the node *)
Definition depends (st : nst) (u s i : nat) : Prop := exists l is, inDep (nDeps st) u = Some l /\ In (s, is) l /\ In i is.
Definition asList {A} (l : list A) : option (list A) := match l with [] => None | _ => Some l end.
Definition hasInput (st : nst) (s i : nat) : Prop := holds (nInp st) s i.

(* the network the call graph sees *)
Definition netOf (W : nat -> option nst) : net := fun s => match W s with Some st => Some (nDeps st) | None => None end.
