(* What C45 speaks about: the calls that returned, in order. *)
From Coq Require Import List Bool Arith.
Import ListNotations.
From Verif Require Import InputsModel.

Definition addsTo (o : op) (s i : nat) : Prop := match o with AddRef _ s' os | AddShared _ s' os => s' = s /\ In i os | _ => False end.
Definition removesFrom (o : op) (s i : nat) : Prop := match o with RemoveAll s' => s' = s | RemoveSome s' os => s' = s /\ In i os | _ => False end.
Definition shares (o : op) (s : nat) : Prop := match o with AddShared _ s' _ => s' = s | _ => False end.

(* added and not removed since *)
Definition requested (h : list op) (s i : nat) : Prop :=
  exists h1 o h2, h = h1 ++ o :: h2 /\ addsTo o s i /\ (forall r, In r h2 -> ~ removesFrom r s i).
Definition used (h : list op) (s : nat) : Prop := exists i, requested h s i.
(* added with shared ownership and in use ever since *)
Definition kept (h : list op) (s : nat) : Prop :=
  exists h1 o h2, h = h1 ++ o :: h2 /\ shares o s /\ (forall h3 h4, h2 = h3 ++ h4 -> used (h1 ++ o :: h3) s).

(* observation of the state: the outputs of a source, the sources kept alive *)
Definition holds (st : state) (s i : nat) : Prop := exists l, getInput st s = Some l /\ In i l.
Definition owns (st : state) (s : nat) : Prop := store st s = true.
Definition same (st st' : state) : Prop := forall s, getInput st' s = getInput st s /\ store st' s = store st s.

(* The state is reached by calls that returned, h, and by calls that threw and changed nothing. *)
Inductive reached : state -> list op -> Prop :=
| R0 : reached empty []
| ROk st h o st' : reached st h -> nonempty o -> exec st o = (st', false) -> reached st' (h ++ [o])
| RThrow st h o st' : reached st h -> exec st o = (st', true) -> same st st' -> reached st' h
with nonempty : op -> Prop :=
| NA en s i os : nonempty (AddRef en s (i :: os))
| NS en s i os : nonempty (AddShared en s (i :: os))
| NR s : nonempty (RemoveAll s)
| NM s i os : nonempty (RemoveSome s (i :: os)).

(* the outputs of os before the first that is not enabled *)
Fixpoint before (p : nat -> bool) (os : list nat) : list nat := match os with [] => [] | i :: os' => if p i then i :: before p os' else [] end.
