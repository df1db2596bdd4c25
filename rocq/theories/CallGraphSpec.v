(* What the calls of a network depend on. *)
Require Import List Arith Relations.
Require Import Verif.GraphModel Verif.CallGraphModel.
Import ListNotations.

Section Net.
Variable N : net.

(* The value of output [o] of source [s] is computed by the update [c]. *)
Inductive feeds : nat -> nat -> call -> Prop :=
| feeds_out s nd o us u : N s = Some nd -> outDep nd o = Some us -> In u us -> feeds s o (s, u)
| feeds_dir s nd o s' o' c : N s = Some nd -> outDep nd o = None -> dirDep nd o = Some (s', o') ->
    feeds s' o' c -> feeds s o c.
(* The update [c] uses what the update [d] computes. *)
Inductive dep : call -> call -> Prop :=
| dep_int s nd u us u' : N s = Some nd -> intDep nd u = Some us -> In u' us -> dep (s, u) (s, u')
| dep_in s nd u ins s' os o d : N s = Some nd -> inDep nd u = Some ins -> In (s', os) ins -> In o os ->
    feeds s' o d -> dep (s, u) d.
(* The update [c] is needed to compute the outputs listed in [ins]. *)
Definition needed (ins : list (nat * list nat)) (c : call) : Prop :=
  exists s os o c0, In (s, os) ins /\ In o os /\ feeds s o c0 /\ clos_refl_trans call dep c0 c.
Definition dep_cycle (ins : list (nat * list nat)) : Prop :=
  exists c d, needed ins c /\ dep c d /\ clos_refl_trans call dep d c.
(* Output forwarding does not go round in circles: the chains have at most [D] links. *)
Definition forwarding_ends (rank : nat -> nat -> nat) (D : nat) : Prop :=
  (forall s o, rank s o <= D) /\
  forall s nd o s' o', N s = Some nd -> outDep nd o = None -> dirDep nd o = Some (s', o') -> rank s' o' < rank s o.
End Net.

(* [c] is called before [d] *)
Definition called_before (p : list call) (c d : call) : Prop := exists l1 l2 l3, p = l1 ++ c :: l2 ++ d :: l3.
(* the outputs registered since the last clear() *)
Fixpoint registered (h : list cgop) (acc : list (nat * list nat)) : list (nat * list nat) :=
  match h with
  | [] => acc
  | CGAdd i :: h' => registered h' (acc ++ i)
  | CGClear :: h' => registered h' []
  end.
(* [U] is a finite set of calls containing all those the outputs of [ins] need. *)
Definition enough_calls (N : net) (ins : list (nat * list nat)) (U : list call) : Prop :=
  (forall s os o c, In (s, os) ins -> In o os -> feeds N s o c -> In c U) /\
  (forall c d, In c U -> dep N c d -> In d U).
(* all the outputs ever registered *)
Fixpoint all_registered (h : list cgop) : list (nat * list nat) :=
  match h with [] => [] | CGAdd i :: h' => i ++ all_registered h' | CGClear :: h' => all_registered h' end.
