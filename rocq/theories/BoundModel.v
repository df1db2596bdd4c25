(* Model of the assignment of bounds: Assignment::Assignment(source, target, variable, first)
   (src/scheme/Assignment.cpp:38-48), build(variable, first) (296-335), addBounds
   (include/tvm/scheme/internal/Assignment.hpp:7-76), addBound (Assignment.cpp:601-646),
   canBeUsedAsBound without substitutions (src/scheme/helpers.cpp).
   The constructor does not fill substitutedVariables_, so its branches on substituted
   variables are never taken. All operations are per component (the matrices are diagonal):
   the model follows one component of the variable. *)
Require Import QArith Qminmax List Bool.
Require Import Verif.Base Verif.AssignModel.
Import ListNotations.
Local Open Scope Q_scope.

(* the properties of the jacobian of the bound: identity, -identity, another invertible
   diagonal declared positive definite, negative definite or neither *)
Inductive bprop := BId | BMinusId | BPos | BNeg | BDiag.
Record bsource := mkB { b_type : ctype; b_rhs : rhs; b_prop : bprop }.
(* the values at the component: e, l, u and the diagonal element of the jacobian *)
Record bvalues := mkBV { bv_e : Q; bv_l : Q; bv_u : Q; bv_d : Q }.

(* where vectors live: the target's l_ and u_, and the four temporaries of the assignment *)
Inductive bvec := Tl | Tu | T1 | T2 | T3 | T4.
Record bmem := mkBM { m_l : Q; m_u : Q; m_1 : Q; m_2 : Q; m_3 : Q; m_4 : Q }.
Definition get (m : bmem) (v : bvec) : Q :=
  match v with Tl => m_l m | Tu => m_u m | T1 => m_1 m | T2 => m_2 m | T3 => m_3 m | T4 => m_4 m end.
Definition put (m : bmem) (v : bvec) (q : Q) : bmem :=
  let 'mkBM l u a b c d := m in
  match v with
  | Tl => mkBM q u a b c d | Tu => mkBM l q a b c d | T1 => mkBM l u q b c d
  | T2 => mkBM l u a q c d | T3 => mkBM l u a b q d | T4 => mkBM l u a b c q
  end.
(* sources: e, l or u of the constraint, a constant, or a temporary *)
Inductive bsrc := BRhs (f : rhsf) | BConst (q : Q) | BVec (v : bvec) | BZero.
(* MatrixMult: IDENTITY, INVERSE_DIAGONAL, GENERAL *)
Inductive bmult := MId | MInv | MGen.
Record bop := mkOp { o_kind : assignT; o_neg : bool; o_mult : bmult; o_src : bsrc; o_dst : bvec }.
(* CompiledAssignment::run: CompiledAssignment.h:626-653, 418-525 *)
Definition bsrcVal (V : bvalues) (m : bmem) (s : bsrc) : Q :=
  match s with
  | BRhs Fe => bv_e V | BRhs Fl => bv_l V | BRhs Fu => bv_u V
  | BConst q => q | BVec v => get m v | BZero => 0
  end.
Definition runOp (V : bvalues) (m : bmem) (o : bop) : bmem :=
  let s := bsrcVal V m (o_src o) in
  let p := match o_mult o with MId => s | MInv => / bv_d V * s | MGen => bv_d V * s end in
  put m (o_dst o) (applyA (o_kind o) (get m (o_dst o)) (if o_neg o then - p else p)).

Section Build.
Variable big : Q.
Variable s : bsource.
Variable t_rhs : rhs.     (* target_.constraintRhs() *)
(* the arguments L l, U u of addBounds *)
Inductive barg := AF (f : rhsf) | AC (q : Q).
(* addVectorAssignment(f, v, flip, useFRHS, useTRHS): Assignment.hpp:179-207;
   with a matrix: 209-242 *)
Definition addF (k : assignT) (mult : bmult) (f : rhsf) (v : bvec) (flip useF useT : bool) : list bop :=
  if negb (rhs_eqb (b_rhs s) RZERO) then
    let f1 := if rhs_eqb (b_rhs s) OPPOSITE && useF then negb flip else flip in
    let f2 := if rhs_eqb t_rhs OPPOSITE && useT then negb f1 else f1 in
    [mkOp k f2 mult (BRhs f) v]
  else if negb (rhs_eqb t_rhs RZERO) then [mkOp k false MId BZero v] else [].
(* the same for a VectorConstRef, with useFRHS false *)
Definition addR (k : assignT) (w v : bvec) (flip useT : bool) : list bop :=
  [mkOp k (if rhs_eqb t_rhs OPPOSITE && useT then negb flip else flip) MId (BVec w) v].
(* addVectorAssignment(double, v, flip): Assignment.hpp:244-250; with a matrix (252-258), which
   leaves the multiplication to its default, GENERAL *)
Definition addC (k : assignT) (mult : bmult) (q : Q) (v : bvec) (flip : bool) : list bop :=
  [mkOp k flip mult (BConst q) v].
Definition addArg (k : assignT) (a : barg) (v : bvec) (flip : bool) : list bop :=
  match a with AF f => addF k MId f v flip true true | AC q => addC k MId q v flip end.
Definition addArgD (a : barg) (v : bvec) : list bop :=
  match a with AF f => addF COPY MInv f v false true false | AC q => addC COPY MGen q v false end.
(* addBounds: Assignment.hpp:20-76 *)
Definition addBounds (l u : barg) (first : bool) : list bop :=
  match b_prop s with
  | BId => if first then addArg COPY l Tl false ++ addArg COPY u Tu false
           else addArg MAX l Tl false ++ addArg MIN u Tu false
  | BMinusId => if first then addArg COPY l Tu true ++ addArg COPY u Tl true
                else addArg MAX u Tl true ++ addArg MIN l Tu true
  | _ =>
      addArgD l T1 ++ addArgD u T2 ++ addR COPY T1 T3 false false ++ addR COPY T2 T4 false false ++
      addR MIN T2 T3 false false ++ addR MAX T1 T4 false false ++
      if first then addR COPY T3 Tl false true ++ addR COPY T4 Tu false true
      else addR MAX T3 Tl false true ++ addR MIN T4 Tu false true
  end.
(* build for a DOUBLE_SIDED target: Assignment.cpp:306-324 *)
Definition buildDouble (first : bool) : list bop :=
  match b_type s with
  | EQUAL => addBounds (AF Fe) (AF Fe) first
  | GREATER_THAN => addBounds (AF Fl) (AC big) first
  | LOWER_THAN => addBounds (AC (- big)) (AF Fu) first
  | DOUBLE_SIDED => addBounds (AF Fl) (AF Fu) first
  end.
End Build.

(* canBeUsedAsBound for a constraint which is a bound: helpers.cpp:79-128 *)
Definition canBeUsed (s : bsource) (tt : ctype) : bool :=
  let posdef := match b_prop s with BId | BPos => true | _ => false end in
  let negdef := match b_prop s with BMinusId | BNeg => true | _ => false end in
  match tt, b_type s with
  | DOUBLE_SIDED, _ => true
  | GREATER_THAN, GREATER_THAN | LOWER_THAN, LOWER_THAN => posdef
  | GREATER_THAN, LOWER_THAN | LOWER_THAN, GREATER_THAN => negdef
  | _, _ => false
  end.
(* The constructor. For a single-sided target, AssignmentTarget(range, lu, ct) sets b_ and not
   constraintRhs_ (AssignmentTarget.cpp:41-49), whereas addBound writes through l() or u()
   (Assignment.cpp:601-646) and addVectorAssignment reads constraintRhs(): UB; with a jacobian
   -identity it adds nothing, because of the test repeated at 626-629. *)
Definition constructBound (big : Q) (s : bsource) (tt : ctype) (t_rhs : rhs) (first : bool) : res (list bop) :=
  if negb (canBeUsed s tt) then Throw
  else match tt with
       | DOUBLE_SIDED => Ok (buildDouble big s t_rhs first)
       | _ => match b_prop s with BMinusId => Ok [] | _ => UB end
       end.
(* the bounds put on a variable, in order; first is the flag of the first of them. The solver
   always passes false (LeastSquareSolver::addBound, src/solver/LeastSquareSolver.cpp:85-94). *)
Fixpoint constructAll (big : Q) (tt : ctype) (r : rhs) (l : list bsource) (first : bool) : res (list (list bop)) :=
  match l with
  | [] => Ok []
  | s :: l' => do o <- constructBound big s tt r first; do os <- constructAll big tt r l' false; Ok (o :: os)
  end.
(* running them in order, each with its own temporaries and data *)
Definition runBound (ov : list bop * bvalues) (lu : Q * Q) : Q * Q :=
  let m := fold_left (runOp (snd ov)) (fst ov) (mkBM (fst lu) (snd lu) 0 0 0 0) in (m_l m, m_u m).
Definition runBounds (l : list (list bop * bvalues)) (lu : Q * Q) : Q * Q := fold_left (fun x ov => runBound ov x) l lu.

(* LeastSquareSolver::solve (src/solver/LeastSquareSolver.cpp:139-167): resetBounds_ sets the box to
   [-sbig, sbig], sbig the option of the solver (e.g. QLDLeastSquareSolver.cpp:111-115), then the
   assignments run in order. big is the static Assignment::big_ (Assignment.cpp:18), which the
   scheme sets (WeightedLeastSquares.cpp:177). *)
Definition solverBox (sbig big : Q) (l : list (bsource * bvalues)) : res (Q * Q) :=
  do os <- constructAll big DOUBLE_SIDED AS_GIVEN (map fst l) false;
  Ok (runBounds (combine os (map snd l)) (- sbig, sbig)).
(* the same for a caller that passes first = true for the first bound and starts from any box *)
Definition firstBox (lu : Q * Q) (big : Q) (l : list (bsource * bvalues)) : res (Q * Q) :=
  do os <- constructAll big DOUBLE_SIDED AS_GIVEN (map fst l) true;
  Ok (runBounds (combine os (map snd l)) lu).
