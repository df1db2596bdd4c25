(* Specification of dependency graphs: a number of nodes and an edge relation. *)
Require Import List Arith Relations.
Require Import Verif.GraphModel.
Import ListNotations.

Record agraph := mkA { an : nat; aE : nat -> nat -> Prop }.

(* The node called [a] after the removal of [id] was called [up id a]. *)
Definition up (id a : nat) : nat := if Nat.ltb a id then a else S a.

Definition astep (g : agraph) (o : gop) : agraph :=
  match o with
  | GNode => mkA (S (an g)) (aE g)
  | GEdge f t => mkA (an g) (fun a b => aE g a b \/ (a = f /\ b = t))
  | GRemove id => mkA (an g - 1) (fun a b => aE g (up id a) (up id b))
  | GClear => mkA 0 (fun _ _ => False)
  end.
(* The calls use ids of existing nodes (otherwise the code is undefined). *)
Definition valid_op (g : agraph) (o : gop) : Prop :=
  match o with
  | GNode | GClear => True
  | GEdge f t => f < an g /\ t < an g
  | GRemove id => id < an g
  end.
Fixpoint valid (g : agraph) (h : list gop) : Prop :=
  match h with [] => True | o :: h' => valid_op g o /\ valid (astep g o) h' end.
Fixpoint aruns (g : agraph) (h : list gop) : agraph :=
  match h with [] => g | o :: h' => aruns (astep g o) h' end.
Definition aempty : agraph := mkA 0 (fun _ _ => False).
Definition agraph_of (h : list gop) : agraph := aruns aempty h.

(* [a] depends, directly or not, on [b] *)
Definition reach (E : nat -> nat -> Prop) : nat -> nat -> Prop := clos_refl_trans nat E.
Definition cyclic (E : nat -> nat -> Prop) : Prop := exists a b, E a b /\ reach E b a.
(* [a] and [b] are linked, ignoring the directions *)
Definition linked (E : nat -> nat -> Prop) : nat -> nat -> Prop := clos_refl_sym_trans nat E.

(* [a] comes before [b] in [l] *)
Definition before (l : list nat) (a b : nat) : Prop := exists l1 l2 l3, l = l1 ++ a :: l2 ++ b :: l3.
(* every node of [l] comes after all it depends on *)
Definition dep_first (E : nat -> nat -> Prop) (l : list nat) : Prop := forall a b, In a l -> E a b -> before l b a.

(* [a] and [b] depend on each other *)
Definition scc (E : nat -> nat -> Prop) (a b : nat) : Prop := reach E a b /\ reach E b a.
(* [a] has no incoming edge *)
Definition is_root (g : agraph) (a : nat) : Prop := a < an g /\ forall b, ~ aE g b a.

(* the equivalence generated by a list of pairs *)
Definition pairs_linked (ps : list (nat * nat)) : nat -> nat -> Prop := linked (fun a b => In (a, b) ps).
