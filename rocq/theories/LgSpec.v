(* What C69 speaks about: the outputs and updates some outputs depend on, according to a log. *)
From Coq Require Import List Bool Arith Relations.
Import ListNotations.
From Verif Require Import Base CallGraphModel CallGraphSpec InputsModel InputsSpec NdModel NdSpec LgModel.
Local Open Scope nat_scope.

Inductive item := AnOutput (n o : nat) | AnUpdate (n u : nat).

Section Log.
Variable L : log.
(* [x] directly uses [y] *)
Inductive uses : item -> item -> Prop :=
| uses_out n o u : In (n, o, u) (lgOutDep L) -> uses (AnOutput n o) (AnUpdate n u)
| uses_dir n o s i : In (n, o, s, i) (lgDir L) -> uses (AnOutput n o) (AnOutput s i)
| uses_int n ud u : In (n, ud, u) (lgIntDep L) -> uses (AnUpdate n ud) (AnUpdate n u)
| uses_in n u s i : In (n, u, s, i) (lgInDep L) -> uses (AnUpdate n u) (AnOutput s i).
(* one of the outputs of [l] uses [x], directly or not *)
Definition usedBy (l : list (nat * nat)) (x : item) : Prop := exists n o, In (n, o) l /\ clos_refl_trans item uses (AnOutput n o) x.
(* [x] uses something that was not logged itself *)
Inductive dangling : item -> Prop :=
| dg_out n o u : In (n, o, u) (lgOutDep L) -> (forall f, ~ In (n, u, f) (lgUpd L)) -> dangling (AnOutput n o)
| dg_dir n o s i : In (n, o, s, i) (lgDir L) -> ~ In (n, s, i) (lgInp L) -> dangling (AnOutput n o)
| dg_int n ud u : In (n, ud, u) (lgIntDep L) -> (forall f, ~ In (n, u, f) (lgUpd L)) -> dangling (AnUpdate n ud)
| dg_in n u s i : In (n, u, s, i) (lgInDep L) -> ~ In (n, s, i) (lgInp L) -> dangling (AnUpdate n u).
(* the function first registered for an update *)
Definition firstFunction (n u f : nat) : Prop := exists l1 l2, lgUpd L = l1 ++ (n, u, f) :: l2 /\ forall g, ~ In (n, u, g) l1.
(* what is asked of the result of a walk *)
Definition rightWalk (start : list (nat * nat)) (outs : list (nat * nat)) (upds : list (nat * nat * nat)) : Prop :=
  NoDup outs /\ NoDup upds /\
  (forall n o, In (n, o) outs <-> usedBy start (AnOutput n o)) /\
  (forall n u f, In (n, u, f) upds <-> usedBy start (AnUpdate n u) /\ firstFunction n u f).
(* turns of the loop that always suffice *)
Definition turns (start : list (nat * nat)) : nat :=
  (length start + length (lgInp L) + length (lgUpd L)) * S (length (lgOutDep L) + length (lgDir L) + length (lgInDep L) + length (lgIntDep L)) + length start.
(* the outputs that are inputs of the objects given to the graph *)
Definition isGraphOutput (g : nat) (n o : nat) : Prop := exists p, In (g, p) (lgGraph L) /\ In (p, n, o) (lgInp L).
Definition inputsOfGraph (g : nat) : list (nat * nat) :=
  flat_map (fun p => if fst p =? g then map (fun i => (snd (fst i), snd i)) (filter (fun i => fst (fst i) =? snd p) (lgInp L)) else []) (lgGraph L).
End Log.

(* the node that declares *)
Definition declaredBy (n : nat) (e : logev) : bool :=
  match e with
  | EUpdate m _ _ | EInput m _ _ | EOutputDep m _ _ | EInternalDep m _ _ | EInputDep m _ _ _ | EDirectDep m _ _ _ => m =? n
  | EGraph _ _ => false
  end.
(* [evs] interleaves the declarations of the nodes (each having made the calls [H n]) and additions to graphs *)
Definition toldBy (H : nat -> list nop) (evs : list logev) : Prop := forall n, filter (declaredBy n) evs = snd (nrun n nst0 (H n)).
Definition world (H : nat -> list nop) : nat -> option nst := fun n => Some (fst (nrun n nst0 (H n))).
Definition logOf (evs : list logev) : log := fst (lrun (map LTell evs)).
(* [ins] lists the inputs of the objects added to the graph [g] *)
Definition addedTo (H : nat -> list nop) (evs : list logev) (g : nat) (ins : list (nat * list nat)) : Prop :=
  forall s o, (exists os, In (s, os) ins /\ In o os) <-> exists p, In (EGraph g p) evs /\ hasInput (fst (nrun p nst0 (H p))) s o.
(* what is told while the logger is enabled *)
Fixpoint heard (enabled : bool) (h : list lop) : list logev :=
  match h with
  | [] => []
  | LDisable :: h' => heard false h'
  | LEnable :: h' => heard true h'
  | LTell e :: h' => if enabled then e :: heard enabled h' else heard enabled h'
  end.
