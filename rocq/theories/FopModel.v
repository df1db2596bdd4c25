(* Model of tvm::internal::FirstOrderProvider (src/internal/FirstOrderProvider.cpp, include/tvm/internal/FirstOrderProvider.h) and of
   tvm::function::abstract::Function (src/function/Function.cpp, Function.h): the variables and the sizes of the caches.
   A variable object is a natural number, in the order of the identifiers; [V] gives the slice it denotes (as in VarVectorModel.v), [ts] the
   size of its tangent space and [dv] its derivative dot(v), one object for each variable object.  A matrix is the list of its
   columns, of any type; its content is None when it was not written after it was resized.  The properties of a matrix are of any type. *)
Require Import ZArith List Bool.
Require Import Verif.Base Verif.RangeModel Verif.VarVectorModel.
Import ListNotations.
Local Open Scope Z_scope.

(* std::map with the pointers to the variables as keys, in the order of the identifiers, utils/internal/map.h:11-18 *)
Section Maps.
Context {B : Type}.
Definition kmap := list (nat * B).
Fixpoint mget (m : kmap) (k : nat) : option B := match m with [] => None | (x, b) :: m => if Nat.eqb x k then Some b else mget m k end.
Fixpoint mset (m : kmap) (k : nat) (b : B) : kmap :=
  match m with
  | [] => [(k, b)]
  | (x, c) :: r => if Nat.ltb k x then (k, b) :: m else if Nat.eqb x k then (k, b) :: r else (x, c) :: mset r k b
  end.
Definition merase (m : kmap) (k : nat) : kmap := filter (fun p => negb (Nat.eqb (fst p) k)) m.
End Maps.
Arguments kmap : clear implicits.

Section Fop.
Context {A P : Type}.
Variable p0 : P. (* MatrixProperties() *)
Variable V : nat -> vslice.
Variable ts : nat -> Z.
Variable dv : nat -> nat.

Record mat := mkMat { m_rows : Z; m_cols : Z; m_data : option (list A); m_props : P }.
(* the default constructor, called by operator[] of the map *)
Definition mat0 : mat := mkMat 0 0 None p0.
(* Eigen: resize keeps the content when the size is the same; the properties are not changed *)
Definition resizeMat (r c : Z) (M : mat) : res mat :=
  if (0 <=? r) && (0 <=? c) then Ok (if (m_rows M =? r) && (m_cols M =? c) then M else mkMat r c None (m_props M)) else UB.
Definition getOr0 (m : kmap mat) (k : nat) : mat := match mget m k with Some M => M | None => mat0 end.
Definition resizeAt (m : kmap mat) (r : Z) (v : nat) : res (kmap mat) := do M <- resizeMat r (ts v) (getOr0 m v); Ok (mset m v M).

(* the outputs which are enabled; all of them are while the constructors run *)
Record enabled := mkEn { enValue : bool; enJacobian : bool; enVelocity : bool; enNormal : bool; enJDot : bool }.
(* imageSpace_ (rSize, tSize, isEuclidean), variables_, jacobian_, linear_, the sizes of value_, velocity_ and normalAcceleration_, JDot_, variablesDot_ *)
Record fn := mkFn { f_rs : Z; f_ts : Z; f_eu : bool; f_vars : list nat; f_jac : kmap mat; f_lin : kmap bool;
                    f_value : Z; f_velocity : Z; f_normal : Z; f_jdot : kmap mat; f_vdot : list nat }.

(* the constructors, FirstOrderProvider.cpp:14-17 and Function.cpp:18-23 *)
Definition newFn (rs t : Z) (eu : bool) : fn := mkFn rs t eu [] [] [] rs t t [] [].

(* resizeJacobianCache, FirstOrderProvider.cpp:31-38, and resizeJDotCache, Function.cpp:45-52 *)
Fixpoint resizeAll (m : kmap mat) (r : Z) (vs : list nat) : res (kmap mat) :=
  match vs with [] => Ok m | v :: vs => do m1 <- resizeAt m r v; resizeAll m1 r vs end.
(* resizeCache, Function.cpp:25-31 and FirstOrderProvider.cpp:19-29; resize, FirstOrderProvider.cpp:90-95 *)
Definition resize (e : enabled) (s : fn) (m : Z) : res fn :=
  if f_eu s && (0 <=? m) then
    do J <- (if enJacobian e then resizeAll (f_jac s) m (f_vars s) else Ok (f_jac s));
    do D <- (if enJDot e then resizeAll (f_jdot s) m (f_vars s) else Ok (f_jdot s));
    Ok (mkFn m m true (f_vars s) J (f_lin s) (if enValue e then m else f_value s) (if enVelocity e then m else f_velocity s)
             (if enNormal e then m else f_normal s) D (f_vdot s))
  else UB.

(* variables_.add, VariableVector.cpp:24-44 *)
Inductive added := AYes | ANo | AThrow.
Definition tryAdd (vs : list nat) (v : nat) : added :=
  if existsb (fun x => s_contains (V x) (V v)) vs then ANo
  else match addLoop V vs v with None => AYes | Some RThrow => AThrow | Some _ => ANo end.
(* addVariable, FirstOrderProvider.cpp:40-49, with addVariable_, Function.cpp:54-58.  The boolean: an exception was thrown *)
Definition addVariable (s : fn) (v : nat) (linear : bool) : res (fn * bool) :=
  match tryAdd (f_vars s) v with
  | AThrow => Ok (s, true)
  | ANo => Ok (s, false)
  | AYes =>
      do J <- resizeAt (f_jac s) (f_ts s) v;
      do D <- resizeAt (f_jdot s) (f_ts s) v;
      Ok (mkFn (f_rs s) (f_ts s) (f_eu s) (f_vars s ++ [v]) J (mset (f_lin s) v linear) (f_value s) (f_velocity s) (f_normal s) D (f_vdot s ++ [dv v]), false)
  end.
(* addVariable(const VariableVector &), FirstOrderProvider.cpp:51-57 *)
Fixpoint addVariables (s : fn) (vs : list nat) (linear : bool) : res (fn * bool) :=
  match vs with
  | [] => Ok (s, false)
  | v :: vs => do (s1, t) <- addVariable s v linear; if t : bool then Ok (s1, true) else addVariables s1 vs linear
  end.

Fixpoint removeFirst (p : nat -> bool) (l : list nat) : list nat := match l with [] => [] | x :: r => if p x then r else x :: removeFirst p r end.
(* removeVariable, FirstOrderProvider.cpp:59-65, with VariableVector::remove, VariableVector.cpp:86-99, and removeVariable_, Function.cpp:60-68 *)
Definition removeVariable (s : fn) (v : nat) : res fn :=
  let s1 := mkFn (f_rs s) (f_ts s) (f_eu s) (removeFirst (fun x => s_eq (V x) (V v)) (f_vars s)) (merase (f_jac s) v) (merase (f_lin s) v)
                 (f_value s) (f_velocity s) (f_normal s) (merase (f_jdot s) v) (removeFirst (Nat.eqb (dv v)) (f_vdot s)) in
  if existsb (Nat.eqb (dv v)) (f_vdot s) then Ok s1 else UB.

(* splitJacobian, FirstOrderProvider.cpp:77-88, for a matrix J with [rows] rows and the columns [J]; the assignments of a
   MatrixWithProperties, MatrixWithProperties.h:79-89, 120-128 and 146-160 *)
Fixpoint splitJacobian (jac : kmap mat) (rows : Z) (J : list A) (vars : list nat) (keep : bool) : res (kmap mat) :=
  match vars with
  | [] => Ok jac
  | v :: vars =>
      let n := Z.to_nat (ts v) in
      let M := getOr0 jac v in
      if (0 <=? ts v) && Nat.leb n (length J) && (m_rows M =? rows) && (m_cols M =? ts v)
      then splitJacobian (mset jac v (mkMat rows (ts v) (Some (firstn n J)) (if keep then m_props M else p0))) rows (skipn n J) vars keep
      else UB
  end.
(* jacobian_[v].properties(p), as done by the derived classes *)
Definition setProperties (jac : kmap mat) (v : nat) (p : P) : kmap mat := let M := getOr0 jac v in mset jac v (mkMat (m_rows M) (m_cols M) (m_data M) p).

(* at(key, with_sub), MapWithVariableAsKey.h:84-118, for linear_ (slice_linear returns the boolean itself), FirstOrderProvider.h:195-196 *)
Definition linearIn (s : fn) (x : nat) : res bool :=
  match mget (f_lin s) x with
  | Some b => Ok b
  | None => match List.find (fun p => s_contains (V (fst p)) (V x)) (f_lin s) with Some (_, b) => Ok b | None => Throw end
  end.

Inductive fop := FAdd (v : nat) (linear : bool) | FAddAll (vs : list nat) (linear : bool) | FRemove (v : nat) | FResize (m : Z)
               | FSplit (rows : Z) (J : list A) (vars : list nat) (keep : bool) | FProps (v : nat) (p : P).
Definition withJac (s : fn) (J : kmap mat) : fn :=
  mkFn (f_rs s) (f_ts s) (f_eu s) (f_vars s) J (f_lin s) (f_value s) (f_velocity s) (f_normal s) (f_jdot s) (f_vdot s).
Definition fstep (e : enabled) (s : fn) (o : fop) : res (fn * bool) :=
  match o with
  | FAdd v b => addVariable s v b
  | FAddAll vs b => addVariables s vs b
  | FRemove v => do s1 <- removeVariable s v; Ok (s1, false)
  | FResize m => do s1 <- resize e s m; Ok (s1, false)
  | FSplit rows J vars keep => do J1 <- splitJacobian (f_jac s) rows J vars keep; Ok (withJac s J1, false)
  | FProps v p => Ok (withJac s (setProperties (f_jac s) v p), false)
  end.
(* exceptions are caught by the caller *)
Fixpoint frun (e : enabled) (s : fn) (ops : list fop) : res fn := match ops with [] => Ok s | o :: ops => do (s1, _) <- fstep e s o; frun e s1 ops end.
End Fop.
Arguments mat : clear implicits.
Arguments fn : clear implicits.
Arguments fop : clear implicits.
