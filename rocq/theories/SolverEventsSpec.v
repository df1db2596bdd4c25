(* Specification for C29: the problem as sets, and the meaning of calls and of stored events. *)
From Coq Require Import List Bool Arith.
Import ListNotations.
From Verif Require Import SolverEventsModel.

Record problem := mkPb { pC : list nat; pB : list nat; pO : list objective; pV : list nat }.

Definition without (x : nat) (l : list nat) : list nat := filter (fun y => negb (x =? y)) l.
Definition withoutO (x : nat) (l : list objective) : list objective := filter (fun o => negb (x =? o_c o)) l.

(* the effect of a call on the problem *)
Definition apply1 (P : problem) (c : call) : problem :=
  match c with
  | AddC c => mkPb (pC P ++ [c]) (pB P) (pO P) (pV P)
  | RemC c => mkPb (without c (pC P)) (pB P) (pO P) (pV P)
  | AddB c => mkPb (pC P) (pB P ++ [c]) (pO P) (pV P)
  | RemB c => mkPb (pC P) (without c (pB P)) (pO P) (pV P)
  | AddO o => mkPb (pC P) (pB P) (pO P ++ [o]) (pV P)
  | RemO c => mkPb (pC P) (pB P) (withoutO c (pO P)) (pV P)
  | AddV v => mkPb (pC P) (pB P) (pO P) (pV P ++ [v])
  | RemV v => mkPb (pC P) (pB P) (pO P) (without v (pV P))
  | ScalarW _ | VectorW _ => P
  end.
Definition apply (P : problem) (l : list call) : problem := fold_left apply1 l P.

(* only what is absent is added, only what is present is removed *)
Definition ok1 (P : problem) (c : call) : Prop :=
  match c with
  | AddC c => ~ In c (pC P) | RemC c => In c (pC P)
  | AddB c => ~ In c (pB P) | RemB c => In c (pB P)
  | AddO o => ~ In (o_c o) (map o_c (pO P)) | RemO c => In c (map o_c (pO P))
  | AddV v => ~ In v (pV P) | RemV v => In v (pV P)
  | ScalarW _ | VectorW _ => True
  end.
Fixpoint ok (P : problem) (l : list call) : Prop :=
  match l with [] => True | c :: l' => ok1 P c /\ ok (apply1 P c) l' end.

(* no objective is added again with other requirements or weight than before *)
Definition same_data (P : problem) (l : list call) : Prop :=
  forall o o', In o (pO P) -> In (AddO o') l -> o_c o = o_c o' -> o = o'.

Record wfP (P : problem) : Prop := {
  wfC : NoDup (pC P); wfB : NoDup (pB P); wfO : NoDup (map o_c (pO P)); wfV : NoDup (pV P) }.

(* [a] and [r] are the exact difference between the sets [old] and [new] *)
Definition difference {A} (old new a r : list A) : Prop :=
  NoDup a /\ NoDup r /\
  (forall x, In x a <-> In x new /\ ~ In x old) /\
  (forall x, In x r <-> In x old /\ ~ In x new).

Definition isVar (c : call) : bool := match c with AddV _ | RemV _ => true | _ => false end.
