(* Specification for C28. *)
From Coq Require Import List Bool Arith.
Import ListNotations.
From Verif Require Import QueueModel.

Definition isSub (e : event) : bool :=
  match e_type e with SubstitutionAddition | SubstitutionRemoval => true | _ => false end.

(* The set of tasks after some events. *)
Definition tasks1 (S : list nat) (e : event) : list nat :=
  match e_type e with
  | TaskAddition => e_emitter e :: S
  | TaskRemoval => filter (fun t => negb (t =? e_emitter e)) S
  | _ => S
  end.
Definition tasksAfter (S : list nat) (l : list event) : list nat := fold_left tasks1 l S.

(* The changes of weight (scalar, anisotropic) of task t since it was last added. *)
Definition changes1 (t : nat) (w : bool * bool) (e : event) : bool * bool :=
  if e_emitter e =? t then
    match e_type e with
    | WeightChange => (true, snd w)
    | AnisotropicWeightChange => (fst w, true)
    | TaskAddition | TaskRemoval => (false, false)
    | _ => w
    end
  else w.
Definition changes (t : nat) (l : list event) : bool * bool := fold_left (changes1 t) l (false, false).

(* Histories of a problem: a task is added when absent, removed or re-weighted when present. *)
Fixpoint valid (S : list nat) (l : list event) : Prop :=
  match l with
  | [] => True
  | e :: l' =>
      match e_type e with
      | TaskAddition => ~ In (e_emitter e) S
      | TaskRemoval | WeightChange | AnisotropicWeightChange => In (e_emitter e) S
      | _ => True
      end /\ valid (tasks1 S e) l'
  end.

(* No substitution has the address of a task. *)
Definition addresses (l : list event) : Prop :=
  forall e e', In e l -> In e' l -> isSub e = true -> isSub e' = false -> e_emitter e <> e_emitter e'.
