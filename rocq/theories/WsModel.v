(* Model of the warm start of solver::LexLSHierarchicalLeastSquareSolver
   (src/solver/LexLSHierarchicalLeastSquareSolver.cpp, "LexLS" below), on top of the model of the solver of
   HlsModel.v. The LexLS library is not modelled: its answers are any. Numbers are rationals. An exception of an
   assignment (C35-C37) and the display are not modelled. *)
From Coq Require Import List Bool Arith QArith.
Import ListNotations.
From Verif Require Import Base HlsModel.
Local Open Scope nat_scope.

(* LexLS::ConstraintActivationType and LexLS::TerminationStatus: the values named in the code, and any other one *)
Inductive ctype := ActiveLB | ActiveUB | OtherType.
Inductive status := Solved | SolvedCycling | OtherStatus.
(* LexLS::ConstraintIdentifier: objective, constraint, type *)
Record active := mkAct { obj_index : nat; ctr_index : nat; ctr_type : ctype }.
(* What the library answers: its status, getActiveCtr_order and get_x *)
Record answer := mkAns { a_status : status; a_act : list active; a_x : list Q }.

(* The solver, whether variables_ is set (null at first, HierarchicalLeastSquareSolver.cpp:41-43), act_ and x0_
   (LexLSHierarchicalLeastSquareSolver.h:74-75). warmStart_ and feasibleFirstLevel_ are parameters. *)
Record ws := mkWs { base : solver; started : bool; act : list active; x0 : list Q }.
Definition newWs : ws := mkWs fresh false [] [].

(* A call which is not a resolution. StartBuild calls resize_, which sets x0_ to zero and clears act_: LexLS
   lines 86 and 151-152. *)
Definition wcall (ffl : bool) (w : ws) (c : call) : res ws :=
  do s <- step ffl (base w) c;
  Ok (match c with
      | StartBuild n _ _ _ => mkWs s true [] (repeat (0 # 1)%Q n)
      | _ => mkWs s (started w) (act w) (x0 w)
      end).

(* What the library is given: its configuration, the data, the calls of activate and that of set_x0 *)
Record given := mkGiven { g_conf : config; g_data : list (nat * nat * bool); g_act : list active; g_x0 : option (list Q) }.
(* LexLS line 214 *)
Definition isActive (c : active) : bool := match ctr_type c with ActiveLB | ActiveUB => true | OtherType => false end.
(* postAssignmentProcess_, LexLS lines 197-219; the calls of setData are [handed] *)
Definition post (warm : bool) (w : ws) (cd : config * list (nat * nat * bool)) : given :=
  mkGiven (fst cd) (snd cd) (if warm then filter isActive (act w) else []) (if warm then Some (x0 w) else None).
(* solve_, LexLS lines 221-234 *)
Definition solve_ (warm : bool) (a : answer) (w : ws) : ws * bool :=
  ((if warm then mkWs (base w) (started w) (a_act a) (a_x a) else w),
   match a_status a with Solved | SolvedCycling => true | OtherStatus => false end).
(* solve, HierarchicalLeastSquareSolver.cpp:130-158; resetBounds_ reads variables(): LexLS line 190 *)
Definition wsolve (warm ffl : bool) (a : answer) (w : ws) : res (ws * given * bool) :=
  if negb (started w) then UB else
  do cd <- solve ffl (base w);
  let '(w', b) := solve_ warm a w in Ok (w', post warm w cd, b).

Inductive wop := Call (c : call) | WSolve (a : answer).
Fixpoint wrun (warm ffl : bool) (w : ws) (l : list wop) : res ws :=
  match l with
  | [] => Ok w
  | Call c :: l' => do w' <- wcall ffl w c; wrun warm ffl w' l'
  | WSolve a :: l' => do r <- wsolve warm ffl a w; wrun warm ffl (fst (fst r)) l'
  end.
