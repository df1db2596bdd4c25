(* C88: the warm start of the hierarchical solver *)
From Coq Require Import List Bool Arith QArith.
Import ListNotations.
From Verif Require Import Base HlsModel WsModel WsSpec WsProofs.
Local Open Scope nat_scope.

(* A resolution with warm start tells the library which constraints were active on a bound at the last resolution
   since the last build, in the order the library gave them, and starts from the last result; at the first resolution
   after a build, it starts from zero with no active constraint. Without warm start nothing is told. It
   succeeds exactly if the library says it solved the problem, cycling handled or not. *)
Theorem C88_given : forall warm ffl ops n l w a w' g b,
  wrun warm ffl newWs ops = Ok w -> sinceBuild ops n l -> wsolve warm ffl a w = Ok (w', g, b) ->
  Ok (g_conf g, g_data g) = solve ffl (base w) /\
  (g_act g, g_x0 g) =
    (if warm then
       match lastAnswer l with
       | None => ([], Some (repeat (0 # 1)%Q n))
       | Some p => (filter isActive (a_act p), Some (a_x p))
       end
     else ([], None)) /\
  (b = true <-> a_status a = Solved \/ a_status a = SolvedCycling).
Proof. exact given_ok. Qed.

(* The answers of the library have no other effect: with the same calls and other answers the same problem is
   given, and without warm start nothing differs. *)
Theorem C88_no_other_effect : forall warm ffl ops ops' w a a' w1 g b,
  Forall2 sameCall ops ops' -> wrun warm ffl newWs ops = Ok w -> wsolve warm ffl a w = Ok (w1, g, b) ->
  exists w' w1' g' b', wrun warm ffl newWs ops' = Ok w' /\ wsolve warm ffl a' w' = Ok (w1', g', b') /\
    g_conf g' = g_conf g /\ g_data g' = g_data g /\ (warm = false -> g' = g).
Proof. exact cold_ok. Qed.

(* If the library answers with constraints that it was set up for, it is only told to activate constraints that it is
   set up for, through any sequence of builds and resolutions. *)
Theorem C88_valid : forall warm ffl ops w a w' g b,
  properRun warm ffl newWs ops -> wrun warm ffl newWs ops = Ok w ->
  wsolve warm ffl a w = Ok (w', g, b) -> forall x, In x (g_act g) -> exists_in (g_conf g) x.
Proof. exact valid_ok. Qed.

(* Solving before any build is undefined: there are no variables yet. *)
Theorem C88_unbuilt : forall warm ffl ops, Forall (fun o => ~ isStart o) ops ->
  forall w, wrun warm ffl newWs ops = Ok w -> forall a, wsolve warm ffl a w = UB.
Proof. exact unstarted. Qed.

(* False: the starting point has the number of variables that the library is set up for. Here the library keeps the
   4 variables of the first build (C48_same_area_refuted), and starts from a point with 2 entries. *)
Theorem C88_start_size_refuted : exists ops w a w' g b n objs v,
  wrun true false newWs ops = Ok w /\ properRun true false newWs ops /\ wsolve true false a w = Ok (w', g, b) /\
  g_conf g = Some (n, objs) /\ g_x0 g = Some v /\ length v <> n.
Proof. exact start_size_wrong. Qed.

(* Cases meeting the hypotheses: one variable of size 2, one constraint with two rows; the second row is active. *)
Definition build1 : list wop := [Call (StartBuild 2 [0] [2] false); Call (AddConstraint (mkC 0 false 2)); Call FinalizeBuild].
Definition ans1 : answer := mkAns Solved [mkAct 0 1 ActiveUB; mkAct 0 0 OtherType] [1 # 2; 3 # 1]%Q.
Definition told (r : res (ws * given * bool)) : option (config * list active * option (list Q) * bool) :=
  match r with Ok (_, g, b) => Some (g_conf g, g_act g, g_x0 g, b) | _ => None end.
Definition solved (ops : list wop) (a : answer) : option (config * list active * option (list Q) * bool) :=
  match wrun true true newWs ops with Ok w => told (wsolve true true a w) | _ => None end.
Example C88_case : solved (build1 ++ [WSolve ans1]) (mkAns OtherStatus [] []) =
  Some (Some (2, [(2, false)]), [mkAct 0 1 ActiveUB], Some [1 # 2; 3 # 1]%Q, false).
Proof. vm_compute. reflexivity. Qed.
Example C88_since_case : sinceBuild (build1 ++ [WSolve ans1]) 2 [ans1].
Proof.
  exists [], [0], [2], false, [Call (AddConstraint (mkC 0 false 2)); Call FinalizeBuild; WSolve ans1].
  split; [reflexivity|]. split; [|reflexivity]. repeat constructor; intros [].
Qed.
Example C88_proper_case : proper (Some (2, [(2, false)])) ans1.
Proof. intros x [<-|[<-|[]]]; exists 2, [(2, false)], 2, false; repeat split; auto. Qed.
Example C88_first_case : solved build1 ans1 = Some (Some (2, [(2, false)]), [], Some [0 # 1; 0 # 1]%Q, true).
Proof. vm_compute. reflexivity. Qed.
Example C88_unbuilt_case : wsolve false true ans1 newWs = UB.
Proof. reflexivity. Qed.

Print Assumptions C88_given.
Print Assumptions C88_no_other_effect.
Print Assumptions C88_valid.
Print Assumptions C88_unbuilt.
Print Assumptions C88_start_size_refuted.
