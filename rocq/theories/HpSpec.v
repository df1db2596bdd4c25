(* What C84 speaks about. *)
From Coq Require Import List Bool Arith QArith.
Import ListNotations.
From Verif Require Import Base QueueModel PbModel HpModel.
Local Open Scope nat_scope.

(* sn is the problem of s: the same constraints, with the same weights, for the same tasks, and the same substitutions *)
Definition isCurrent (s : hp) (sn : snap) : Prop :=
  (forall t c w, sn_task sn t = Some (c, w) <-> lookup t (cons (h_pb s)) = Some c /\ h_w s t = w) /\ sn_subs sn = subs (h_pb s).
(* Histories in which a task is only added when absent and no call throws *)
Fixpoint quiet (b : nat -> bool) (s : hp) (ops : list hop) : Prop :=
  match ops with
  | [] => True
  | o :: ops => match o with UAdd t _ => ~ In t (tr (h_pb s)) | _ => True end /\
      match hstep b s o with HDone s' _ => quiet b s' ops | HThrew _ => False | HUndef => True end
  end.
(* A change of the tasks of the problem *)
Definition changes (s : hp) (o : hop) : Prop :=
  match o with
  | UAdd t _ => True
  | URemove t => In t (tr (h_pb s)) /\ forall c u, lookup t (cons (h_pb s)) = Some c -> In u (subs (h_pb s)) -> ~ In c (s_cstr u)
  | UWeight t _ | UAniso t _ => In t (tr (h_pb s))
  | _ => False
  end.
(* k calls of solve that all throw *)
Fixpoint throwing (b : nat -> bool) (i k : nat) (s s' : hp) : Prop :=
  match k with 0 => s' = s | S k => exists s1, hstep b s (USolve i) = HThrew s1 /\ throwing b i k s1 s' end.
(* the same problem, but for the pending events *)
Definition sameProblem (s s' : hp) : Prop :=
  tr (h_pb s') = tr (h_pb s) /\ cons (h_pb s') = cons (h_pb s) /\ subs (h_pb s') = subs (h_pb s) /\ h_w s' = h_w s.
(* The weights last given to a task: with the task or, each on its own, by a change *)
Definition givenScalar (t : nat) (ops : list hop) : Q :=
  fold_left (fun x o => match o with UAdd u w => if u =? t then fst w else x | UWeight u y => if u =? t then y else x | _ => x end) ops 1%Q.
Definition givenAniso (t : nat) (ops : list hop) : list Q :=
  fold_left (fun x o => match o with UAdd u w => if u =? t then snd w else x | UAniso u y => if u =? t then y else x | _ => x end) ops [].
