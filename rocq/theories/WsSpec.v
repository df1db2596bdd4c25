(* What C88 speaks about. *)
From Coq Require Import List Bool Arith QArith.
Import ListNotations.
From Verif Require Import Base HlsModel WsModel.
Local Open Scope nat_scope.

Definition isStart (o : wop) : Prop := match o with Call (StartBuild _ _ _ _) => True | _ => False end.
(* The answers of the library, in order. *)
Fixpoint answers (l : list wop) : list answer :=
  match l with [] => [] | WSolve a :: l' => a :: answers l' | _ :: l' => answers l' end.
(* The last build was started with n variables, and the answers since then are l. *)
Definition sinceBuild (ops : list wop) (n : nat) (l : list answer) : Prop :=
  exists before ne ni ub after, ops = before ++ Call (StartBuild n ne ni ub) :: after /\
    Forall (fun o => ~ isStart o) after /\ l = answers after.
(* The last of the answers, if any. *)
Definition lastAnswer (l : list answer) : option answer := match rev l with [] => None | a :: _ => Some a end.
(* The same calls, with other answers of the library. *)
Definition sameCall (o o' : wop) : Prop :=
  match o, o' with Call c, Call c' => c = c' | WSolve _, WSolve _ => True | _, _ => False end.

(* A constraint which exists in the configuration of the library. *)
Definition exists_in (c : config) (a : active) : Prop :=
  exists n objs rows b, c = Some (n, objs) /\ nth_error objs (obj_index a) = Some (rows, b) /\ ctr_index a < rows.
(* The library answers with constraints that it was set up for. *)
Definition proper (c : config) (a : answer) : Prop := forall x, In x (a_act a) -> exists_in c x.
Fixpoint properRun (warm ffl : bool) (w : ws) (l : list wop) : Prop :=
  match l with
  | [] => True
  | Call c :: l' => forall w', wcall ffl w c = Ok w' -> properRun warm ffl w' l'
  | WSolve a :: l' => proper (conf (base w)) a /\ forall w' g b, wsolve warm ffl a w = Ok (w', g, b) -> properRun warm ffl w' l'
  end.
