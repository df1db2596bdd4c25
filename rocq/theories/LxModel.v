(* Model of what solver::LexLSLeastSquareSolver (src/solver/LexLSLeastSquareSolver.cpp) gives to the LexLS library at each
   resolution: the dimensions, and the warm start.  The content of the matrices is the subject of C53.  The library is not in the
   repository: a resolution is given by its answer, that is its status, the state of each constraint of the first two objectives and
   the solution.  Sizes are natural numbers. *)
From Coq Require Import List Bool Arith QArith.
Import ListNotations.
From Verif Require Import Base.
Local Open Scope nat_scope.

(* LexLS::ConstraintActivationType and LexLS::TerminationStatus: the values named in the code, and any other one *)
Inductive activation := ActiveLB | ActiveUB | OtherState (k : nat).
Inductive status := Solved | SolvedCycling | OtherStatus (k : nat).
Record answer := mkAns { a_status : status; a_act0 : list activation; a_act1 : list activation; a_x : list Q }.

(* rows and columns of an Eigen::MatrixXd *)
Definition dims := (nat * nat)%type.
(* ImpactFromChanges::willReallocate, include/tvm/solver/abstract/LeastSquareSolver.h:238-242 *)
Definition willReallocate (m : dims) (r c : nat) : bool := negb (fst m * snd m =? r * c).
(* What solver_ was last resized to (lines 96-101): number of variables and, for each of the three objectives, the number of rows
   and whether it is made of simple bounds *)
Definition config := (nat * list (nat * bool))%type.

(* The fields (LexLSLeastSquareSolver.h:64-82), but for the contents of the matrices, autoMinNorm_ and big_number_.
   lx_built: variables_ is set *)
Record lexls := mkLx {
  lx_built : bool; lx_data0 : dims; lx_data1 : dims; lx_data2 : dims; lx_conf : option config; lx_varIndex : list nat;
  lx_warm : bool; lx_act0 : list activation; lx_act1 : list activation; lx_x0 : list Q }.
(* Constructor, lines 15-44 *)
Definition newLexls (warm : bool) : lexls := mkLx false (1, 1) (1, 1) (1, 1) None [] warm [] [] [].

(* resize_, lines 53-114, called by startBuild (LeastSquareSolver.cpp:46-75, through initializeBuild_, lines 46-51) and by process
   (LeastSquareSolver.cpp:189) *)
Definition resize_ (n nObj nEq nIneq : nat) (s : lexls) : lexls :=
  let nCstr := nEq + nIneq in
  let impact := willReallocate (lx_data2 s) nObj (n + 2) || willReallocate (lx_data1 s) nCstr (n + 2) || willReallocate (lx_data0 s) n 2 in
  mkLx true (n, 2) (nCstr, n + 2) (nObj, n + 2)
    (if impact then Some (n, [(n, true); (nCstr, false); (nObj, false)]) else lx_conf s)
    (if length (lx_varIndex s) =? n then lx_varIndex s else seq 0 n)
    (lx_warm s) [] [] (repeat 0%Q n).

(* What the library is given in a resolution: its configuration, the data of the three objectives, the indices of the variables of
   the first one, the calls of activate (objective, constraint, state) and, with warm start, the starting point *)
Record given := mkGiven {
  g_conf : option config; g_data : list dims; g_vars : list nat; g_activate : list (nat * nat * activation); g_x0 : option (list Q) }.
(* the lambda, lines 171-178, from constraint i on *)
Fixpoint activations (level i : nat) (act : list activation) : list (nat * nat * activation) :=
  match act with
  | [] => []
  | ActiveLB :: act => (level, i, ActiveLB) :: activations level (S i) act
  | ActiveUB :: act => (level, i, ActiveUB) :: activations level (S i) act
  | OtherState _ :: act => activations level (S i) act
  end.
(* postAssignmentProcess_, lines 162-183 *)
Definition postAssignmentProcess_ (s : lexls) : given :=
  mkGiven (lx_conf s) [lx_data0 s; lx_data1 s; lx_data2 s] (lx_varIndex s)
    (if lx_warm s then activations 0 0 (lx_act0 s) ++ activations 1 0 (lx_act1 s) else [])
    (if lx_warm s then Some (lx_x0 s) else None).
(* solve_, lines 185-200 *)
Definition solve_ (a : answer) (s : lexls) : lexls * bool :=
  (if lx_warm s then mkLx (lx_built s) (lx_data0 s) (lx_data1 s) (lx_data2 s) (lx_conf s) (lx_varIndex s) (lx_warm s) (a_act0 a) (a_act1 a) (a_x a) else s,
   match a_status a with Solved | SolvedCycling => true | OtherStatus _ => false end).
(* LeastSquareSolver::solve, LeastSquareSolver.cpp:139-167; before any build resetBounds_ (lines 153-158) reads variables() without
   variables *)
Definition solve (a : answer) (s : lexls) : res (lexls * given * bool) :=
  if lx_built s then let (s', b) := solve_ a s in Ok (s', postAssignmentProcess_ s, b) else UB.

(* The calls: Size is a build or a processing of events with these sizes *)
Inductive lxop := Size (n nObj nEq nIneq : nat) | LSolve (a : answer).
Fixpoint lxrun (s : lexls) (l : list lxop) : res lexls :=
  match l with
  | [] => Ok s
  | Size n o e i :: l => lxrun (resize_ n o e i s) l
  | LSolve a :: l => do r <- solve a s; lxrun (fst (fst r)) l
  end.
