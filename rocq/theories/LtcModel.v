(* Model of tvm::Task (src/Task.cpp), of the task dynamics None and Constant (src/task_dynamics/None.cpp,
   src/task_dynamics/Constant.cpp) and of the linearized task constraint
   (src/constraint/LinearizedTaskConstraint.cpp, src/constraint/LinearConstraint.cpp,
   src/constraint/RHSVectors.cpp), over the variables of VariableModel.v.
   A function is given by its variables, jacobians and normal acceleration at the current state.  A
   task dynamics is given by its order and by the value its implementation computes at the current
   state from the type and the right-hand side, if it can be built (see DynModel.v and PDModel.v for
   what the implementations compute).  The computation graph is left out: all is up to date. *)
From Coq Require Import ZArith List Bool QArith.
From Verif Require Import Base RangeModel SpaceModel VariableModel MapVarModel QSum.
Import ListNotations.
Local Open Scope nat_scope.

Inductive ctype := EQUAL | GREATER_THAN | LOWER_THAN | DOUBLE_SIDED.
Inductive order := Zero | One | Two.

(* [f_J]: FirstOrderProvider::jacobian_, [f_lin]: linear_, [f_b]: LinearFunction::b if the function is
   a LinearFunction, [f_na]: normalAcceleration_ *)
Record func := mkF { f_n : nat; f_eu : bool; f_vars : list nat; f_J : vmap (list Q); f_lin : nat -> bool; f_b : option (list Q); f_na : list Q }.
Record tdyn := mkTD { t_order : order; t_impl : func -> ctype -> list Q -> res (list Q) }.
Record task := mkTask { k_f : func; k_type : ctype; k_order : order; k_td : list Q; k_td2 : option (list Q) }.

Definition vsubL (a b : list Q) : res (list Q) :=
  if length a =? length b then Ok (map (fun p => (fst p - snd p)%Q) (combine a b)) else UB.

(* TaskDynamicsImpl::TaskDynamicsImpl, TaskDynamicsImpl.cpp:18-27 *)
Definition tdCheck (f : func) (rhs : list Q) : res unit := if negb (f_n f =? length rhs) then Throw else if negb (f_eu f) then Throw else Ok tt.
(* Constant::Impl, Constant.cpp:24-28 *)
Definition constantTD : tdyn := mkTD Zero (fun f _ rhs => do _ <- tdCheck f rhs; Ok rhs).
(* None::Impl, None.cpp:21-34 *)
Definition noneTD : tdyn := mkTD Zero (fun f _ rhs => do _ <- tdCheck f rhs; match f_b f with None => Throw | Some b => vsubL rhs b end).

(* Task(f, t, td, rhs), Task.cpp:24-35; Task(f, t, td) is the case rhs = 0, lines 11-18 *)
Definition newTask (f : func) (t : ctype) (td : tdyn) (rhs : list Q) : res task :=
  do v <- t_impl td f t rhs;
  match t with DOUBLE_SIDED => Throw | _ => if negb (f_eu f) then Throw else Ok (mkTask f t (t_order td) v None) end.
(* Task(f, t, td, l, u), lines 41-52: the same dynamics for the two sides *)
Definition newTask2 (f : func) (t : ctype) (td : tdyn) (l u : list Q) : res task :=
  do v <- t_impl td f GREATER_THAN l;
  do w <- t_impl td f LOWER_THAN u;
  match t with DOUBLE_SIDED => if negb (f_eu f) then Throw else Ok (mkTask f t (t_order td) v (Some w)) | _ => Throw end.

(* VariableVector::add, VariableVector.cpp:24-44 *)
Fixpoint anyContains (h : heap) (l : list nat) (v : nat) : res bool :=
  match l with [] => Ok false | x :: l => do c <- vcontains h x v; if c then Ok true else anyContains h l v end.
Fixpoint anyIntersects (h : heap) (l : list nat) (v : nat) : res bool :=
  match l with [] => Ok false | x :: l => do c <- vintersects h x v; if c then Ok true else anyIntersects h l v end.
Definition addVariable (h : heap) (l : list nat) (v : nat) : res (list nat) :=
  do c <- anyContains h l v; if c then Ok l else do i <- anyIntersects h l v; if i then Throw else Ok (l ++ [v]).

Record ltc := mkLtc { c_type : ctype; c_order : order; c_f : func; c_vars : list nat; c_td : list Q; c_td2 : option (list Q) }.
(* LinearizedTaskConstraint.cpp:64-89: the variables, obtained by derivation; dot(v) is dot(v, 1) *)
Fixpoint addVars (h : heap) (o : order) (lin : nat -> bool) (acc vs : list nat) : res (heap * list nat) :=
  match vs with
  | [] => Ok (h, acc)
  | v :: vs =>
      match o with
      | Zero => if lin v then do acc <- addVariable h acc v; addVars h o lin acc vs else Throw
      | One => do (h, d) <- dot h v 1 false; do acc <- addVariable h acc d; addVars h o lin acc vs
      | Two => do (h, d) <- dot h v 2 false; do acc <- addVariable h acc d; addVars h o lin acc vs
      end
  end.
(* LinearizedTaskConstraint::LinearizedTaskConstraint, lines 18-129.  The orders of the two dynamics of
   a double-sided task are equal by newTask2. *)
Definition newLtc (h : heap) (k : task) : res (heap * ltc) :=
  do (h, vs) <- addVars h (k_order k) (f_lin (k_f k)) [] (f_vars (k_f k));
  Ok (h, mkLtc (k_type k) (k_order k) (k_f k) vs (k_td k) (k_td2 k)).

(* updateLKin to updateU2Dyn, lines 131-145 *)
Definition rhsOf (c : ltc) (v : list Q) : res (list Q) := match c_order c with Two => vsubL v (f_na (c_f c)) | _ => Ok v end.
(* l(), u(), e(), selected at lines 37-62 and 106-117; None: the output is disabled *)
Definition ltcL (c : ltc) : res (option (list Q)) :=
  match c_type c with GREATER_THAN | DOUBLE_SIDED => do r <- rhsOf c (c_td c); Ok (Some r) | _ => Ok None end.
Definition ltcU (c : ltc) : res (option (list Q)) :=
  match c_type c with
  | LOWER_THAN => do r <- rhsOf c (c_td c); Ok (Some r)
  | DOUBLE_SIDED => match c_td2 c with Some w => do r <- rhsOf c w; Ok (Some r) | None => UB end
  | _ => Ok None
  end.
Definition ltcE (c : ltc) : res (option (list Q)) := match c_type c with EQUAL => do r <- rhsOf c (c_td c); Ok (Some r) | _ => Ok None end.
(* Variable::primitive<n>, Variable.h:297-319 *)
Definition primitive (n : nat) (h : heap) (x : nat) : res nat := do o <- get h x; if n <=? v_dn o then walkPrim n h x else Throw.
(* jacobian, lines 147-163 *)
Definition ltcJacobian (h : heap) (c : ltc) (x : nat) : res (list (list Q)) :=
  match c_order c with
  | Zero => jacobian h (f_J (c_f c)) x
  | One => do p <- primitive 1 h x; jacobian h (f_J (c_f c)) p
  | Two => do p <- primitive 2 h x; jacobian h (f_J (c_f c)) p
  end.
(* Eigen: J * x, coefficient i, for a matrix given by its columns *)
Definition mulRow (J : list (list Q)) (x : list Q) (i : nat) : Q := qsum (fun p => nth i (fst p) 0 * snd p)%Q (combine J x).
(* LinearConstraint::updateValue, LinearConstraint.cpp:21-28, coefficient i, for the values [env] of the
   variables.  The product of a matrix by a vector of another size is undefined (Eigen asserts it). *)
Fixpoint ltcSum (h : heap) (c : ltc) (env : nat -> list Q) (vs : list nat) (i : nat) : res Q :=
  match vs with
  | [] => Ok 0%Q
  | v :: vs => do J <- ltcJacobian h c v; if length J =? length (env v) then do s <- ltcSum h c env vs i; Ok (mulRow J (env v) i + s)%Q else UB
  end.
Definition ltcValue (h : heap) (c : ltc) (env : nat -> list Q) (i : nat) : res Q := ltcSum h c env (c_vars c) i.
