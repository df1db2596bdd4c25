(* Model of the number standing for infinity: ResolutionSchemeBase::big_number (src/scheme/ResolutionScheme.cpp), the
   static member Assignment::big_ (src/scheme/Assignment.cpp:18) that all schemes share, and its use in the assignments of
   one-sided constraints to double-sided targets, made when the computation data of a problem are created or rebuilt and
   when a task is added to it.  A constraint is given by its type, and a state has, for each problem, the constraints
   assigned with the number they hold.  Doubles are rationals.  The numbers of the solvers for the variables without
   bounds are another matter (see QpModel.v).  Re-made assignments (LeastSquareSolver.cpp:317) are those of objectives,
   which are equalities: they have no such number. *)
From Coq Require Import List Bool Arith QArith.
From Verif Require Import Base.
Import ListNotations.
Local Open Scope nat_scope.

Inductive ctype := EQUAL | GREATER_THAN | LOWER_THAN | DOUBLE_SIDED.
Inductive kind := Weighted | Hierarchical.
Record row := mkRow { w_type : ctype; w_big : Q }.
(* [g_big]: Assignment::big_; [g_schemes]: the schemes with big_number_; [g_data]: computation data, with their scheme *)
Record bgs := mkBg { g_big : Q; g_schemes : list (kind * Q); g_data : list (nat * list row) }.
Definition pos (b : Q) : bool := negb (Qle_bool b 0).
Fixpoint upd {A} (l : list A) (k : nat) (x : A) : list A :=
  match l with [] => [] | a :: l => match k with 0 => x :: l | S k => a :: upd l k x end end.
(* ResolutionSchemeBase::ResolutionSchemeBase, ResolutionScheme.cpp:14-16 *)
Definition newScheme (s : bgs) (k : kind) (b : Q) : res bgs := if pos b then Ok (mkBg (g_big s) (g_schemes s ++ [(k, b)]) (g_data s)) else UB.
(* big_number(double), lines 20-24 *)
Definition setBig (s : bgs) (i : nat) (b : Q) : res bgs :=
  match nth_error (g_schemes s) i with
  | Some (k, _) => if pos b then Ok (mkBg (g_big s) (upd (g_schemes s) i (k, b)) (g_data s)) else UB
  | None => UB
  end.
(* processProblem: WeightedLeastSquares.cpp:113-219, HierarchicalLeastSquares.cpp:107-191; the number is set at lines 177 and
   170, and the assignments are then made by addConstraint, addObjective and addBound *)
Definition processProblem (s : bgs) (b : Q) (l : list ctype) : Q * list row := (b, map (fun t => mkRow t b) l).
(* createComputationData_, WeightedLeastSquares.cpp:98-105, HierarchicalLeastSquares.cpp:92-99 *)
Definition create (s : bgs) (i : nat) (l : list ctype) : res bgs :=
  match nth_error (g_schemes s) i with
  | Some (_, b) => let (g, r) := processProblem s b l in Ok (mkBg g (g_schemes s) (g_data s ++ [(i, r)]))
  | None => UB
  end.
(* resetComputationData, WeightedLeastSquares.cpp:107-111, HierarchicalLeastSquares.cpp:101-105 *)
Definition reset (s : bgs) (d : nat) (l : list ctype) : res bgs :=
  match nth_error (g_data s) d with
  | Some (i, _) => match nth_error (g_schemes s) i with
                   | Some (_, b) => let (g, r) := processProblem s b l in Ok (mkBg g (g_schemes s) (upd (g_data s) d (i, r)))
                   | None => UB
                   end
  | None => UB
  end.
(* addTask, WeightedLeastSquares.cpp:221-266, then the assignment made by LeastSquareSolver::process with the shared number;
   HierarchicalLeastSquares.cpp:193-197 *)
Definition addTask (s : bgs) (d : nat) (t : ctype) : res bgs :=
  match nth_error (g_data s) d with
  | Some (i, r) => match nth_error (g_schemes s) i with
                   | Some (Weighted, _) => Ok (mkBg (g_big s) (g_schemes s) (upd (g_data s) d (i, r ++ [mkRow t (g_big s)])))
                   | Some (Hierarchical, _) => Throw
                   | None => UB
                   end
  | None => UB
  end.
Inductive bgop := NewScheme (k : kind) (b : Q) | SetBig (i : nat) (b : Q) | Create (i : nat) (l : list ctype) | Reset (d : nat) (l : list ctype) | AddTask (d : nat) (t : ctype).
Definition bgstep (s : bgs) (o : bgop) : res bgs :=
  match o with NewScheme k b => newScheme s k b | SetBig i b => setBig s i b | Create i l => create s i l | Reset d l => reset s d l | AddTask d t => addTask s d t end.
Fixpoint bgrun (s : bgs) (l : list bgop) : res bgs := match l with [] => Ok s | o :: l => do s <- bgstep s o; bgrun s l end.
(* constant::big_number, defs.h:94; Assignment.cpp:18 *)
Definition bginit (b0 : Q) : bgs := mkBg b0 [] [].
(* the two sides given to the solver for a constraint with the bounds lo and up (the right-hand side being both for an
   equality): Assignment::build, Assignment.cpp:276-290, and 306-325 for bounds *)
Definition sides (r : row) (lo up : Q) : Q * Q :=
  match w_type r with
  | EQUAL | DOUBLE_SIDED => (lo, up)
  | GREATER_THAN => (lo, w_big r)
  | LOWER_THAN => ((- w_big r)%Q, up)
  end.
