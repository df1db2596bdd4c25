(* What C47 speaks about, from the actions alone. *)
From Coq Require Import List Bool Arith.
Import ListNotations.
From Verif Require Import Base EventModel.
Local Open Scope nat_scope.

(* the listeners registered for e, in order, once per registration *)
Definition registered (h : list action) (e : nat) : list nat :=
  flat_map (fun a => match a with Regist l e' => if e' =? e then [l] else [] | _ => [] end) h.
Definition destroyed (h : list action) (l : nat) : Prop := In (Destroy l) h.
(* every notification in h finds all its listeners alive *)
Definition allAlive (h : list action) : Prop :=
  forall h1 e h2, h = h1 ++ Notify e :: h2 -> forall l, In l (registered h1 e) -> ~ destroyed h1 l.
(* what should be received when the listeners do nothing *)
Fixpoint expected (done todo : list action) : list delivery :=
  match todo with
  | [] => []
  | Notify e :: todo' => map (fun l => Receive l e []) (registered done e) ++ expected (done ++ [Notify e]) todo'
  | a :: todo' => expected (done ++ [a]) todo'
  end.
Definition receiver (d : delivery) : nat := match d with Receive l _ _ => l end.
Definition about (d : delivery) : nat := match d with Receive _ e _ => e end.
