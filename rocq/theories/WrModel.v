(* Model of the relations written with the operators of include/tvm/utils/ProtoTask.h (with utils/internal/ProtoTaskDetails.h), of their
   addition to a problem with the dynamics None and of the linear constraint which comes out.
   Functions and expressions are those of LinFunModel.v; the function of a variable alone is an IdentityFunction.  [None] is a relation
   which does not compile.  Doubles are rationals, so that an infinite right-hand side is left out; so are the call graph (all is up to
   date) and the requirements. *)
Require Import QArith ZArith List Bool.
Require Import Verif.Base Verif.QSum Verif.RangeModel Verif.SpaceModel Verif.VarCountingModel Verif.LinFunModel.
Import ListNotations.

(* constraint::Type *)
Inductive wtype := WEqual | WGreater | WLower | WDouble.

(* ---- right-hand sides, ProtoTaskDetails.h:27-49 ---- *)
Inductive rhs := RZero | RDouble (d : Q) | RVec (v : vec).
(* what the user writes: a double or a vector; the constructors, lines 51-55 *)
Inductive given := GDouble (d : Q) | GVec (v : vec).
Definition newRhs (g : given) : rhs :=
  match g with GDouble d => if Qeq_bool d 0 then RZero else RDouble d | GVec v => RVec v end.
(* RHS::toVector, lines 57-73 *)
Definition toVector (r : rhs) (n : nat) : res vec :=
  match r with
  | RZero => Ok (mkVec n (fun _ => 0%Q))
  | RDouble d => Ok (mkVec n (fun _ => d))
  | RVec v => if Nat.eqb (vn v) n then Ok v else UB
  end.

(* ---- proto-tasks; [F] is what points to the function, [size] its size when the proto-task is made ---- *)
Section Proto.
Context {F : Type}.
Inductive proto := PSingle (t : wtype) (f : F) (r : rhs) | PDouble (f : F) (l u : rhs).
Definition wrongSize (size : nat) (r : rhs) : bool := match r with RVec v => negb (Nat.eqb size (vn v)) | _ => false end.
(* ProtoTaskCommon::ProtoTaskCommon, ProtoTask.h:31-37 *)
Definition newSingle (size : nat) (t : wtype) (f : F) (r : rhs) : res proto := if wrongSize size r then Throw else Ok (PSingle t f r).
(* ProtoTask.h:51-61 *)
Definition newDouble (size : nat) (f : F) (l u : rhs) : res proto :=
  if wrongSize size l then Throw else if wrongSize size u then Throw else Ok (PDouble f l u).

(* The operators between a function and a right-hand side, on its right (lines 123, 127, 131) and on its left (lines 125, 129, 133) *)
Inductive cmp := CEq | CGe | CLe.
Definition opRight (size : nat) (f : F) (c : cmp) (r : rhs) : res proto :=
  match c with CEq => newSingle size WEqual f r | CGe => newSingle size WGreater f r | CLe => newSingle size WLower f r end.
Definition opLeft (size : nat) (r : rhs) (c : cmp) (f : F) : res proto :=
  match c with CEq => newSingle size WEqual f r | CGe => newSingle size WLower f r | CLe => newSingle size WGreater f r end.
(* The operators between a proto-task and a right-hand side, lines 135-138 *)
Definition opChain (size : nat) (p : proto) (c : cmp) (r : rhs) : option (res proto) :=
  match p, c with
  | PSingle WLower f u, CGe => Some (newDouble size f r u)
  | PSingle WGreater f l, CLe => Some (newDouble size f l r)
  | _, _ => None
  end.
End Proto.
Arguments proto : clear implicits.

(* A relation as it is written: [f c r], [r c f], or one of these two followed by [c r] *)
Inductive written := WRight (c : cmp) (g : given) | WLeft (g : given) (c : cmp) | WChain (w : written) (c : cmp) (g : given).
(* The type of the proto-task does not depend on the values: an exception takes the place of one that compiles *)
Fixpoint typeOf (w : written) : option wtype :=
  match w with
  | WRight c _ => Some (match c with CEq => WEqual | CGe => WGreater | CLe => WLower end)
  | WLeft _ c => Some (match c with CEq => WEqual | CGe => WLower | CLe => WGreater end)
  | WChain w c _ => match typeOf w, c with Some WLower, CGe | Some WGreater, CLe => Some WDouble | _, _ => None end
  end.
Fixpoint evaluate {F : Type} (size : nat) (f : F) (w : written) : res (proto F) :=
  match w with
  | WRight c g => opRight size f c (newRhs g)
  | WLeft g c => opLeft size (newRhs g) c f
  | WChain w c g => do p <- evaluate size f w; match opChain size p c (newRhs g) with Some r => r | None => UB (* not compiled *) end
  end.

Section Functions.
Variables (spOf : nat -> space) (base : nat -> bool).

(* What stands in the relation: a pointer to a linear function, a variable, an expression *)
Inductive subject := SFun (f : blf) | SVar (x : cvar) | SExpr (e : expr).
(* IdentityFunction::IdentityFunction, IdentityFunction.cpp:13-15, called at ProtoTask.h:142; the expressions are turned into functions at
   ProtoTask.h:164, as in LinFunModel.v.  The value of an IdentityFunction is the one of its variable, IdentityFunction.cpp:26. *)
Definition identityFunction (x : cvar) : res blf :=
  do f <- ofMatrices0 base [mid (Z.to_nat (vsize base x))] [x];
  Ok (mkF (f_size f) (map (fun j => mkJ (j_var j) (j_mat j) Ident) (f_jac f)) (f_b f)).
Definition toFunction (s : subject) : option (res blf) :=
  match s with
  | SFun f => Some (Ok f)
  | SVar x => Some (identityFunction x)
  | SExpr e => match build base e with Some p => ofOperand spOf base p | None => None end
  end.
(* The operators with a variable on the one side, ProtoTask.h:153-158, or an expression, lines 178-201: each calls the operator of the
   functions with the function on the left *)
Definition flip (c : cmp) : cmp := match c with CEq => CEq | CGe => CLe | CLe => CGe end.
Fixpoint onLeft (w : written) : written :=
  match w with WRight c g => WRight c g | WLeft g c => WRight (flip c) g | WChain w c g => WChain (onLeft w) c g end.
Definition relation (s : subject) (w : written) : option (res (proto blf)) :=
  match typeOf w, toFunction s with
  | Some _, Some f => Some (do f <- f; evaluate (f_size f) f (match s with SFun _ => w | _ => onLeft w end))
  | _, _ => None
  end.

(* ---- the task and the constraint ---- *)
(* The task, Task.cpp:24-34 and 40-51 called at 53-71, with the dynamics None (ControlProblem.h:144-146, LinearizedControlProblem.h:119-121): the type and
   the right-hand sides of the one or two implementations of the dynamics, which are of the size of f (TaskDynamicsImpl.cpp:21-24).  The function
   is given apart, as its matrices and its constant may change later. *)
Record constr := mkCn { n_type : wtype; n_size : nat; n_rhs : vec; n_rhs2 : option vec }.
Definition newTask (t : wtype) (size : nat) (v : vec) : res constr :=
  if negb (Nat.eqb size (vn v)) then Throw else match t with WDouble => Throw | _ => Ok (mkCn t size v None) end.
Definition newTask2 (size : nat) (l u : vec) : res constr :=
  if negb (Nat.eqb size (vn l)) then Throw else if negb (Nat.eqb size (vn u)) then Throw else Ok (mkCn WDouble size l (Some u)).
(* [size] is the size of the function at this time *)
Definition add {F} (size : nat) (p : proto F) : res constr :=
  match p with
  | PSingle t _ r => do v <- toVector r size; newTask t size v
  | PDouble _ l u => do vl <- toVector l size; do vu <- toVector u size; newTask2 size vl vu
  end.

(* None::Impl::updateValue, None.cpp:34: value_ = rhs() - b() *)
Definition noneValue (r : vec) (f : blf) : option vec := vadd r (vneg (f_b f)).
(* l(), u() and e() of the constraint, LinearizedTaskConstraint.cpp:37-62, 106-117 and 131-143: for each one None if the output does not exist *)
Definition cL (c : constr) (f : blf) : option (option vec) := match n_type c with WGreater | WDouble => Some (noneValue (n_rhs c) f) | _ => None end.
Definition cU (c : constr) (f : blf) : option (option vec) :=
  match n_type c with
  | WLower => Some (noneValue (n_rhs c) f)
  | WDouble => Some (match n_rhs2 c with Some r => noneValue r f | None => None end)
  | _ => None
  end.
Definition cE (c : constr) (f : blf) : option (option vec) := match n_type c with WEqual => Some (noneValue (n_rhs c) f) | _ => None end.
(* The value of the constraint, LinearConstraint.cpp:21-28, with the jacobians of f (LinearizedTaskConstraint.cpp:147-152) *)
Definition cValue (env : nat -> Z -> Q) (c : constr) (f : blf) : option vec := accumulate (valueOf base env) (zero (n_size c)) (f_jac f).
End Functions.
