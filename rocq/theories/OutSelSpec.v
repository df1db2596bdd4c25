(* What C46 speaks about, from the events alone. *)
From Coq Require Import List Bool Arith.
Import ListNotations.
From Verif Require Import Base OutSelModel.
Local Open Scope nat_scope.

(* number of outputs of the class after h *)
Definition added (v : event) : nat := match v with Derive n _ _ => n | _ => 0 end.
Definition total (h : list event) : nat := list_sum (map added h).
(* the outputs disabled by the last class that says so *)
Fixpoint disabledBy (h : list event) (acc : list nat) : list nat :=
  match h with
  | [] => acc
  | Derive _ (Some l) _ :: h' => disabledBy h' l
  | _ :: h' => disabledBy h' acc
  end.
Definition staticallyOff (h : list event) (e : nat) : Prop := In e (disabledBy h []).
Fixpoint lockedBy (h : list event) (acc : bool) : bool :=
  match h with [] => acc | Lock :: h' => lockedBy h' true | Unlock :: h' => lockedBy h' false | _ :: h' => lockedBy h' acc end.
(* the outputs the last selector of the chain knows *)
Fixpoint coveredBy (h : list event) (n c : nat) : nat :=
  match h with
  | [] => c
  | Derive k _ NoSel :: h' => coveredBy h' (n + k) c
  | Derive k _ SelBase :: h' => coveredBy h' (n + k) n
  | Derive k _ SelSelf :: h' => coveredBy h' (n + k) (n + k)
  | _ :: h' => coveredBy h' n c
  end.
Definition covered (h : list event) : nat := coveredBy h 0 0.
Definition hasSelector (h : list event) : Prop := exists n d s, In (Derive n d s) h /\ s <> NoSel.

(* A request is accepted: it is for an output of the class, while unlocked, and does not enable an
   output that is statically disabled. *)
Definition acceptedEnable (h : list event) (e : nat) : Prop := e < covered h /\ lockedBy h false = false /\ ~ staticallyOff h e.
Definition acceptedDisable (h : list event) (e : nat) : Prop := e < covered h /\ lockedBy h false = false.
(* the last accepted request for e was to disable it *)
Definition lastDisabled (h : list event) (e : nat) : Prop :=
  exists h1 h2, h = h1 ++ Disable (Own e) :: h2 /\ acceptedDisable h1 e /\
    (forall h3 h4, h2 = h3 ++ Enable (Own e) :: h4 -> ~ acceptedEnable (h1 ++ Disable (Own e) :: h3) e).

(* histories that are programs: requests and locks only once there is a selector *)
Fixpoint program (h : list event) (sel : bool) : bool :=
  match h with
  | [] => true
  | Derive _ _ NoSel :: h' => program h' sel
  | Derive _ _ _ :: h' => program h' true
  | _ :: h' => sel && program h' sel
  end.
