(* The data that the least-square solvers hand to the numerical solvers.
   Sources: src/solver/LeastSquareSolver.cpp (startBuild, addConstraint, addObjective, addBound,
   setMinimumNorm, finalizeBuild, solve) and src/solver/{QLD,Quadprog,LSSOL,LexLS}LeastSquareSolver.cpp
   (initializeBuild_, resize_, the targets of add*_, setMinimumNorm_, resetBounds_,
   pre/postAssignmentProcess_, solve_).
   The assignments themselves are those of AssignModel.v and BoundModel.v.
   Doubles are rationals; matrices and vectors are functions of the indices. The memory of a
   view (Aineq_, bineq_, cl_, cu_, A1_...) is addressed with the rows of the object it is a view
   on: see SolverModel.v for the views. The vectors b_, l_, u_ shared between constraints and
   bounds (Quadprog, LSSOL) are split in two here. The incremental changes (process) are in
   SolverModel.v, the options that only go to the numerical solvers, warm start and printing are
   not modelled. The householder QR decomposition and the triangular inverse of Eigen are given
   as arguments of the model. *)
Require Import QArith List Arith Bool.
Require Import Verif.Base Verif.QSum Verif.AssignModel Verif.BoundModel.
Import ListNotations.
Local Open Scope Q_scope.

Inductive solver := SQLD | SQuadprog | SLSSOL | SLexLS.
Definition native (sv : solver) : bool := match sv with SLSSOL | SLexLS => true | _ => false end.
(* QLDLeastSquareSolver.h:21-25, QuadprogLeastSquareSolver.h:21-25: big_number, cholesky,
   choleskyDamping, damping (the last one for Quadprog only) *)
Record options := mkOpt { o_big : Q; o_chol : bool; o_cdamp : Q; o_damp : Q }.

(* an objective with its requirements and its scalarization weight *)
Record objective := mkObj { j_src : source; j_req : reqs; j_scal : Q }.
(* The problem as WeightedLeastSquares::processProblem gives it: the variables of the solver, the
   substitutions, the constraints in order of addition, the objectives, the bounds with their
   variable. p_minNorm: setMinimumNorm is called (there is then no objective:
   WeightedLeastSquares.cpp:169-174). *)
Record problem := mkProb {
  p_vars : list nat; p_sub : substs;
  p_cstrs : list source; p_objs : list objective; p_bnds : list (nat * bsource);
  p_minNorm : bool }.
(* the values at a solve: jacobian(x), e(), l(), u() of each constraint and objective, in the same
   order; the values of each bound, per component of the variable; those of the substitutions *)
Record cvalues := mkCV { cv_jac : nat -> mat; cv_e : vec; cv_l : vec; cv_u : vec }.
Record data := mkData {
  d_cstrs : list cvalues; d_objs : list cvalues; d_bnds : list (nat -> bvalues);
  d_sjac : nat -> nat -> mat; d_sb : nat -> vec }.
Definition valuesOf (V : data) (c : cvalues) : values :=
  mkVal (cv_jac c) (cv_e c) (cv_l c) (cv_u c) (d_sjac V) (d_sb V).

(* The members: D_, e_ (A_, b_ for LSSOL, A2_, l2_, u2_ for LexLS) are s_D; A_, b_ (C_, cl_, cu_;
   A1_, l1_, u1_) are s_C; s_Q is None as long as Q_ has not been sized. *)
Record state := mkSt {
  s_n : nat; s_nObj : nat; s_nEq : nat; s_nIneq : nat; s_useb : bool; s_minNorm : bool;
  s_D : mem; s_Q : option mat; s_c : vec; s_C : mem; s_xl : vec; s_xu : vec;
  s_objSize : nat; s_eqSize : nat; s_ineqSize : nat;
  s_cs : list (target * assignment);   (* assignments of the constraints *)
  s_os : list (target * assignment);   (* of the objectives *)
  s_bs : list (nat * list bop)         (* of the bounds, with their variable *)
}.

Definition zeroM : mat := fun _ _ => 0.
Definition idM : mat := fun r c => if Nat.eqb r c then 1 else 0.
Definition constV (q : Q) : vec := fun _ => q.
(* a newly constructed solver *)
Definition fresh : state :=
  mkSt 0 0 0 0 false false (mkMem zeroM (constV 0) (constV 0) (constV 0)) None (constV 0)
       (mkMem zeroM (constV 0) (constV 0) (constV 0)) (constV 0) (constV 0) 0 0 0 [] [] [].

Section Solver.
Variable debug : bool.                       (* assert() is compiled *)
Variable sqrtf : Q -> Q.
Variable abig : Q.                           (* Assignment::big_ *)
Variable v_size : nat -> nat.
Variable sv : solver.
Variable o : options.

(* VariableVector::totalSize; the start of Variable::getMappingIn for a variable of the vector *)
Definition total (vars : list nat) : nat := list_sum (map v_size vars).
Fixpoint startIn (vars : list nat) (y : nat) : option nat :=
  match vars with
  | [] => None
  | z :: l => if Nat.eqb z y then Some O else option_map (Nat.add (v_size z)) (startIn l y)
  end.

(* LeastSquareSolver::constraintSize, LeastSquareSolver.cpp:171-181 *)
Definition constraintSize (c : source) : nat :=
  if negb (ct_eqb (c_type c) DOUBLE_SIDED) || native sv then c_size c else (2 * c_size c)%nat.
Definition isEq (c : source) : bool := ct_eqb (c_type c) EQUAL.
(* the counts made by processProblem (WeightedLeastSquares.cpp:124-174) *)
Definition countEq (l : list source) : nat := list_sum (map constraintSize (filter isEq l)).
Definition countIneq (l : list source) : nat := list_sum (map constraintSize (filter (fun c => negb (isEq c)) l)).
Definition countObj (l : list objective) : nat := list_sum (map (fun j => c_size (j_src j)) l).

(* the initial D_: QLD 34-46, Quadprog 38-50, LSSOL 70-72, and A2_ of LexLS 59-76 *)
Definition under (n nObj : nat) : bool := Nat.ltb nObj n.
Definition dampRows (n nObj : nat) : bool :=
  match sv with SQLD | SQuadprog => o_chol o && under n nObj | _ => false end.
Definition dampedM (n nObj : nat) : mat :=
  if dampRows n nObj then fun r c => if Nat.eqb r (nObj + c) then o_cdamp o else 0 else zeroM.
(* number of rows of D_ *)
Definition rowsD (n nObj : nat) : nat := if dampRows n nObj then (nObj + n)%nat else nObj.
(* A_ of Quadprog with bounds: rows -I and I after those of the constraints (55-66) *)
Definition boundM (n nCstr : nat) (useb : bool) : mat :=
  match sv with
  | SQuadprog => if useb then
      fun r c => if Nat.eqb r (nCstr + c) then -(1) else if Nat.eqb r (nCstr + n + c) then 1 else 0
      else zeroM
  | _ => zeroM
  end.

(* startBuild (LeastSquareSolver.cpp:46-75), with initializeBuild_ and resize_. initializeBuild_
   resets autoMinNorm_ after having called resize_ (LexLS 46-51), and resize_ of LexLS reads it.
   What resize does not initialise keeps its value. *)
Definition startBuild (n nObj nEq nIneq : nat) (useb : bool) (s : state) : state :=
  let nC := (nEq + nIneq)%nat in
  let big := o_big o in
  let D := match sv with
           | SQLD | SQuadprog => mkMem (dampedM n nObj) (mb (s_D s)) (ml (s_D s)) (mu (s_D s))
           | SLSSOL => mkMem zeroM (constV 0) (ml (s_D s)) (mu (s_D s))
           | SLexLS => if s_minNorm s then mkMem idM (mb (s_D s)) (constV 0) (constV 0)
                       else mkMem zeroM (mb (s_D s)) (constV (- big)) (constV big)
           end in
  let C := match sv with
           | SQLD | SQuadprog => mkMem (boundM n nC useb) (mb (s_C s)) (ml (s_C s)) (mu (s_C s))
           | _ => mkMem zeroM (mb (s_C s)) (constV (- big)) (constV big)
           end in
  let Qm := match sv with
            | SQLD | SQuadprog => if o_chol o then s_Q s
                                  else Some (match s_Q s with Some q => q | None => zeroM end)
            | _ => s_Q s
            end in
  mkSt n nObj nEq nIneq useb false D Qm (s_c s) C (constV (- big)) (constV big) 0 0 0 [] [] [].

(* the targets of addEqualityConstraint_, addIneqalityConstraint_, addObjective_ with the ranges
   of next*Range_: QLD 82-102 and 158-165, Quadprog 113-134 and 218-226, LSSOL 99-120 and 165-172,
   LexLS 122-143 and 204-211. e, i: eqSize_, ineqSize_. The rows of Aineq_ start at nEq. *)
Definition eqTarget (e i : nat) (c : source) : target :=
  match sv with
  | SQLD => mkTarget EQUAL OPPOSITE e (c_size c)
  | SQuadprog => mkTarget EQUAL AS_GIVEN e (c_size c)
  | SLSSOL | SLexLS => mkTarget DOUBLE_SIDED AS_GIVEN (e + i) (c_size c)
  end.
Definition ineqTarget (nEq e i : nat) (c : source) : target :=
  match sv with
  | SQLD => mkTarget GREATER_THAN OPPOSITE (nEq + i) (constraintSize c)
  | SQuadprog => mkTarget LOWER_THAN AS_GIVEN (nEq + i) (constraintSize c)
  | SLSSOL | SLexLS => mkTarget DOUBLE_SIDED AS_GIVEN (e + i) (c_size c)
  end.
Definition objTarget (k : nat) (c : source) : target :=
  match sv with
  | SQLD | SQuadprog => mkTarget EQUAL OPPOSITE k (c_size c)
  | SLSSOL => mkTarget EQUAL AS_GIVEN k (c_size c)
  | SLexLS => mkTarget DOUBLE_SIDED AS_GIVEN k (c_size c)
  end.

Section Add.
Variable vars : list nat.
Variable sub : substs.
Definition assign (c : source) (t : target) (r : option reqs) (w : Q) : res assignment :=
  construct sqrtf abig v_size (startIn vars) c t sub r w.
(* addConstraint: LeastSquareSolver.cpp:96-112 *)
Definition addConstraint (c : source) (s : state) : res state :=
  let '(t, e, i) :=
    if isEq c then (eqTarget (s_eqSize s) (s_ineqSize s) c, s_eqSize s + constraintSize c, s_ineqSize s)%nat
    else (ineqTarget (s_nEq s) (s_eqSize s) (s_ineqSize s) c, s_eqSize s, s_ineqSize s + constraintSize c)%nat in
  do g <- assign c t None 1;
  Ok (mkSt (s_n s) (s_nObj s) (s_nEq s) (s_nIneq s) (s_useb s) (s_minNorm s) (s_D s) (s_Q s) (s_c s) (s_C s)
           (s_xl s) (s_xu s) (s_objSize s) e i (s_cs s ++ [(t, g)]) (s_os s) (s_bs s)).
(* addObjective: LeastSquareSolver.cpp:114-127 *)
Definition addObjective (j : objective) (s : state) : res state :=
  let t := objTarget (s_objSize s) (j_src j) in
  do g <- assign (j_src j) t (Some (j_req j)) (j_scal j);
  Ok (mkSt (s_n s) (s_nObj s) (s_nEq s) (s_nIneq s) (s_useb s) (s_minNorm s) (s_D s) (s_Q s) (s_c s) (s_C s)
           (s_xl s) (s_xu s) (s_objSize s + c_size (j_src j)) (s_eqSize s) (s_ineqSize s)
           (s_cs s) (s_os s ++ [(t, g)]) (s_bs s)).
(* addBound: LeastSquareSolver.cpp:85-94, with the flag first false; getMappingIn throws when the
   variable is not one of the solver *)
Definition addBound (b : nat * bsource) (s : state) : res state :=
  match startIn vars (fst b) with
  | None => Throw
  | Some _ =>
      do ops <- constructBound abig (snd b) DOUBLE_SIDED AS_GIVEN false;
      Ok (mkSt (s_n s) (s_nObj s) (s_nEq s) (s_nIneq s) (s_useb s) (s_minNorm s) (s_D s) (s_Q s) (s_c s) (s_C s)
               (s_xl s) (s_xu s) (s_objSize s) (s_eqSize s) (s_ineqSize s) (s_cs s) (s_os s)
               (s_bs s ++ [(fst b, ops)]))
  end.
Fixpoint each {A} (f : A -> state -> res state) (l : list A) (s : state) : res state :=
  match l with [] => Ok s | a :: l' => do s1 <- f a s; each f l' s1 end.
End Add.

(* setMinimumNorm (LeastSquareSolver.cpp:129-137) and setMinimumNorm_: QLD 104-109, Quadprog
   136-141, LSSOL 122-126, LexLS 145-151. setIdentity on a matrix without size does nothing. *)
Definition setMinimumNorm (s : state) : state :=
  let D := match sv with
           | SQLD | SQuadprog => s_D s
           | SLSSOL => mkMem (mA (s_D s)) (constV 0) (ml (s_D s)) (mu (s_D s))
           | SLexLS => mkMem idM (mb (s_D s)) (constV 0) (constV 0)
           end in
  let qp := match sv with SQLD | SQuadprog => true | _ => false end in
  mkSt (s_n s) (s_nObj s) (s_nEq s) (s_nIneq s) (s_useb s) true D
       (if qp then option_map (fun _ => idM) (s_Q s) else s_Q s)
       (if qp then constV 0 else s_c s) (s_C s)
       (s_xl s) (s_xu s) (s_objSize s) (s_eqSize s) (s_ineqSize s) (s_cs s) (s_os s) (s_bs s).
(* finalizeBuild: LeastSquareSolver.cpp:77-83; a violated assert is UB *)
Definition finalizeBuild (s : state) : res state :=
  if debug && negb (Nat.eqb (s_nObj s) (s_objSize s) && Nat.eqb (s_nEq s) (s_eqSize s) && Nat.eqb (s_nIneq s) (s_ineqSize s))
  then UB else Ok s.
(* processProblem from startBuild on (WeightedLeastSquares.cpp:169-219). The scheme mixes
   constraints and objectives; they are added to different members. *)
Definition build (P : problem) (s : state) : res state :=
  let n := total (p_vars P) in
  let nObj := if p_minNorm P then n else countObj (p_objs P) in
  let s0 := startBuild n nObj (countEq (p_cstrs P)) (countIneq (p_cstrs P))
                       (match p_bnds P with [] => false | _ => true end) s in
  do s1 <- each (addConstraint (p_vars P) (p_sub P)) (p_cstrs P) s0;
  do s2 <- each (addObjective (p_vars P) (p_sub P)) (p_objs P) s1;
  let s3 := if p_minNorm P then setMinimumNorm s2 else s2 in
  do s4 <- each (addBound (p_vars P)) (p_bnds P) s3;
  finalizeBuild s4.

(* ---- solve: LeastSquareSolver.cpp:139-169 ---- *)
Definition setD (D : mem) (s : state) : state :=
  mkSt (s_n s) (s_nObj s) (s_nEq s) (s_nIneq s) (s_useb s) (s_minNorm s) D (s_Q s) (s_c s) (s_C s)
       (s_xl s) (s_xu s) (s_objSize s) (s_eqSize s) (s_ineqSize s) (s_cs s) (s_os s) (s_bs s).
Definition setCost (Qm : option mat) (c : vec) (s : state) : state :=
  mkSt (s_n s) (s_nObj s) (s_nEq s) (s_nIneq s) (s_useb s) (s_minNorm s) (s_D s) Qm c (s_C s)
       (s_xl s) (s_xu s) (s_objSize s) (s_eqSize s) (s_ineqSize s) (s_cs s) (s_os s) (s_bs s).
Definition setC (C : mem) (s : state) : state :=
  mkSt (s_n s) (s_nObj s) (s_nEq s) (s_nIneq s) (s_useb s) (s_minNorm s) (s_D s) (s_Q s) (s_c s) C
       (s_xl s) (s_xu s) (s_objSize s) (s_eqSize s) (s_ineqSize s) (s_cs s) (s_os s) (s_bs s).
Definition setBox (xl xu : vec) (s : state) : state :=
  mkSt (s_n s) (s_nObj s) (s_nEq s) (s_nIneq s) (s_useb s) (s_minNorm s) (s_D s) (s_Q s) (s_c s) (s_C s)
       xl xu (s_objSize s) (s_eqSize s) (s_ineqSize s) (s_cs s) (s_os s) (s_bs s).

(* resetBounds_: QLD 111-115, Quadprog 143-147, LSSOL 128-133, LexLS 153-158 *)
Definition resetBounds (s : state) : state := setBox (constV (- o_big o)) (constV (o_big o)) s.
(* preAssignmentProcess_: QLD 117 and LexLS 160 do nothing; Quadprog 149-166; LSSOL 135-141 *)
Definition pre (s : state) : state :=
  match sv with
  | SQLD | SLexLS => s
  | SQuadprog =>
      let s1 := setBox (constV (- o_big o)) (s_xu s) s in
      if negb (s_minNorm s) && o_chol o
      then setD (mkMem (dampedM (s_n s) (s_nObj s)) (mb (s_D s)) (ml (s_D s)) (mu (s_D s))) s1 else s1
  | SLSSOL => if negb (s_minNorm s) then setD (mkMem zeroM (mb (s_D s)) (ml (s_D s)) (mu (s_D s))) s else s
  end.
(* the assignments of one list *)
Definition runAll (l : list (target * assignment)) (Vs : list values) (m : mem) : mem :=
  fold_left (fun m a => run v_size (snd a) (fst (fst a)) (snd (fst a)) m) (combine l Vs) m.
(* the assignments of the bounds, seen from component k of variable y *)
Definition runBnds (l : list (nat * list bop)) (Vs : list (nat -> bvalues)) (y k : nat) (lu : Q * Q) : Q * Q :=
  fold_left (fun lu a => if Nat.eqb (fst (fst a)) y then runBound (snd (fst a), snd a k) lu else lu) (combine l Vs) lu.
(* the variable and component of a column *)
Fixpoint owner (vars : list nat) (j : nat) : option (nat * nat) :=
  match vars with
  | [] => None
  | z :: l => if Nat.ltb j (v_size z) then Some (z, j) else owner l (j - v_size z)
  end.
Definition assigned (vars : list nat) (V : data) (s0 : state) : state :=
  let s := pre (resetBounds s0) in
  let s1 := setC (runAll (s_cs s) (map (valuesOf V) (d_cstrs V)) (s_C s)) s in
  let s2 := setD (runAll (s_os s) (map (valuesOf V) (d_objs V)) (s_D s)) s1 in
  let box j := match owner vars j with
               | Some (y, k) => runBnds (s_bs s) (d_bnds V) y k (s_xl s j, s_xu s j)
               | None => (s_xl s j, s_xu s j) end in
  setBox (fun j => fst (box j)) (fun j => snd (box j)) s2.
(* postAssignmentProcess_: QLD 119-141, Quadprog 168-199, LSSOL 143-147, LexLS 162-183. Ri: the
   inverse of the R factor, from the triangular solve, put by Quadprog in the top rows of D_ *)
Definition gram (rows : nat) (D : mat) : mat := fun i j => qsumn (fun r => D r i * D r j) rows.
Definition post (Ri : mat) (s : state) : state :=
  let D := mA (s_D s) in
  let c := fun j => qsumn (fun r => D r j * mb (s_D s) r) (s_nObj s) in
  let rows := rowsD (s_n s) (s_nObj s) in
  match sv with
  | SQLD =>
      if s_minNorm s then s
      else if o_chol o then setCost (s_Q s) c s else setCost (Some (gram rows D)) c s
  | SQuadprog =>
      let s1 := setBox (fun j => - s_xl s j) (s_xu s) s in
      if s_minNorm s then s1
      else if o_chol o then
        setD (mkMem (fun r k => if Nat.ltb r (s_n s) then Ri r k else D r k) (mb (s_D s)) (ml (s_D s)) (mu (s_D s)))
             (setCost (s_Q s) c s1)
      else setCost (Some (fun i j => gram rows D i j + (if Nat.eqb i j then o_damp o else 0))) c s1
  | SLSSOL => if s_minNorm s then setD (mkMem idM (mb (s_D s)) (ml (s_D s)) (mu (s_D s))) s else s
  | SLexLS => s
  end.

(* What is handed, as QLD, Quadprog, LSSOL and LexLS take it; factored: the first matrix is
   the factor R of the cost (QLD), or its inverse (Quadprog). *)
Inductive handed :=
| HQLD (factored : bool) (n nEq m : nat) (H : mat) (c : vec) (A : mat) (b : vec) (xl xu : vec)
| HQuadprog (factored : bool) (n nEq m : nat) (H : mat) (c : vec) (A : mat) (b : vec)
| HLSSOL (n nObj m : nat) (A : mat) (b : vec) (C : mat) (cl cu xl xu : vec)
| HLSSOL_FP (n m : nat) (C : mat) (cl cu xl xu : vec)
| HLexLS (n nObj m : nat) (A2 : mat) (l2 u2 : vec) (A1 : mat) (l1 u1 xl xu : vec).
(* solve_: QLD 143-154, Quadprog 201-214, LSSOL 149-155, LexLS 185-200. R: the R factor. Q_ given
   without size: UB. *)
Definition hand (R : mat) (s : state) : res handed :=
  let m := (s_nEq s + s_nIneq s)%nat in
  match sv with
  | SQLD =>
      if o_chol o && negb (s_minNorm s)
      then Ok (HQLD true (s_n s) (s_nEq s) m R (s_c s) (mA (s_C s)) (mb (s_C s)) (s_xl s) (s_xu s))
      else match s_Q s with
           | None => UB
           | Some H => Ok (HQLD false (s_n s) (s_nEq s) m H (s_c s) (mA (s_C s)) (mb (s_C s)) (s_xl s) (s_xu s))
           end
  | SQuadprog =>
      (* nIneqInclBounds_, and b_ with its segments xl_ and xu_ *)
      let m' := if s_useb s then (m + 2 * s_n s)%nat else m in
      let b := fun r => if Nat.ltb r m then mb (s_C s) r
                        else if Nat.ltb r (m + s_n s) then s_xl s (r - m)%nat
                        else s_xu s (r - m - s_n s)%nat in
      if o_chol o && negb (s_minNorm s)
      then Ok (HQuadprog true (s_n s) (s_nEq s) m' (mA (s_D s)) (s_c s) (mA (s_C s)) b)
      else match s_Q s with
           | None => UB
           | Some H => Ok (HQuadprog false (s_n s) (s_nEq s) m' H (s_c s) (mA (s_C s)) b)
           end
  | SLSSOL =>
      if Nat.ltb 0 (s_nObj s)
      then Ok (HLSSOL (s_n s) (s_nObj s) m (mA (s_D s)) (mb (s_D s)) (mA (s_C s)) (ml (s_C s)) (mu (s_C s)) (s_xl s) (s_xu s))
      else Ok (HLSSOL_FP (s_n s) m (mA (s_C s)) (ml (s_C s)) (mu (s_C s)) (s_xl s) (s_xu s))
  | SLexLS =>
      Ok (HLexLS (s_n s) (s_nObj s) m (mA (s_D s)) (ml (s_D s)) (mu (s_D s)) (mA (s_C s)) (ml (s_C s)) (mu (s_C s)) (s_xl s) (s_xu s))
  end.
(* after the resolution: LSSOL has overwritten A_ (comment in LSSOL 137-138); the others take
   constant references *)
Definition overwritten (J : mat) (s : state) : state :=
  match sv with SLSSOL => setD (mkMem J (mb (s_D s)) (ml (s_D s)) (mu (s_D s))) s | _ => s end.
(* one solve: R, Ri the results of the decompositions, J what LSSOL leaves in A_ *)
Definition solve (vars : list nat) (V : data) (R Ri J : mat) (s : state) : res (handed * state) :=
  let s1 := post Ri (assigned vars V s) in
  do h <- hand R s1;
  Ok (h, overwritten J s1).
(* several solves; the result of the last one *)
Fixpoint solves (vars : list nat) (l : list (data * (mat * mat * mat))) (s : state) : res state :=
  match l with
  | [] => Ok s
  | (V, (R, Ri, J)) :: l' => do hs <- solve vars V R Ri J s; solves vars l' (snd hs)
  end.
End Solver.
