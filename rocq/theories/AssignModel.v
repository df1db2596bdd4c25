(* Model of scheme::internal::Assignment (src/scheme/Assignment.cpp,
   include/tvm/scheme/internal/Assignment.{h,hpp}), CompiledAssignment.h and
   AssignmentTarget (src/scheme/AssignmentTarget.cpp).
   doubles are rationals; std::sqrt is a parameter. Vectors and matrices are functions of
   the indices, used within the sizes the code uses; the memory of a target is one
   function per Eigen object (A_, b_, l_, u_), so distinct objects do not alias. Variables
   are atomic: the case where VariableVectorPartition (C12) leaves the variables of the
   source as they are; [v_size] is their size. Source data is read when the assignment runs
   (the code keeps references), the properties of the matrices when it is built. *)
Require Import QArith Qminmax List Arith Bool.
Require Import Verif.Base.
Import ListNotations.
Local Open Scope Q_scope.

Definition vec := nat -> Q.
Definition mat := nat -> nat -> Q.

(* include/tvm/constraint/enums.h:13-38 *)
Inductive ctype := EQUAL | GREATER_THAN | LOWER_THAN | DOUBLE_SIDED.
Inductive rhs := RZERO | AS_GIVEN | OPPOSITE.
Definition ct_eqb (a b : ctype) : bool :=
  match a, b with EQUAL, EQUAL | GREATER_THAN, GREATER_THAN | LOWER_THAN, LOWER_THAN | DOUBLE_SIDED, DOUBLE_SIDED => true | _, _ => false end.
Definition rhs_eqb (a b : rhs) : bool :=
  match a, b with RZERO, RZERO | AS_GIVEN, AS_GIVEN | OPPOSITE, OPPOSITE => true | _, _ => false end.

(* what the code asks of the properties of a jacobian *)
Inductive jprop := PId | PMinusId | PGen.

(* the source: include/tvm/constraint/abstract/{Constraint,LinearConstraint}.h *)
Record source := mkSource {
  c_type : ctype; c_rhs : rhs; c_size : nat;
  c_vars : list nat;               (* variables() *)
  c_prop : nat -> jprop            (* jacobian(x).properties() *)
}.
(* a substitution x = sum A_y y + b: the variables of the function, and whether b() is not a
   constant zero (Assignment.cpp:454) *)
Record subst := mkSubst { s_vars : list nat; s_bnz : bool }.
(* substitutedVariables_ and variableSubstitutions_ *)
Definition substs := list (nat * subst).
Fixpoint findSub (x : nat) (l : substs) : option subst :=
  match l with [] => None | (y, s) :: l' => if Nat.eqb y x then Some s else findSub x l' end.
(* the numerical data at the time of a run *)
Record values := mkVal {
  v_jac : nat -> mat;              (* source_->jacobian(x) *)
  v_e : vec; v_l : vec; v_u : vec; (* source_->e(), l(), u() *)
  v_sjac : nat -> nat -> mat;      (* jacobian(y) of the substitution of x *)
  v_sb : nat -> vec                (* b() of the substitution of x *)
}.

(* AssignmentTarget.h:40-127 (linear targets) *)
Record target := mkTarget { t_type : ctype; t_rhs : rhs; t_start : nat; t_dim : nat }.
(* the matrix and vectors the solver allocated *)
Record mem := mkMem { mA : mat; mb : vec; ml : vec; mu : vec }.

(* AssignmentTarget.cpp: A, AFirstHalf, ASecondHalf; l, u, b, bFirstHalf, bSecondHalf (67-108) *)
Inductive mslot := SA | SAFirst | SASecond.
Inductive vslot := Sb | SbFirst | SbSecond | Sl | Su.
Definition mrows (t : target) (s : mslot) : nat * nat :=
  match s with
  | SA => (t_start t, t_dim t)
  | SAFirst => (t_start t, Nat.div (t_dim t) 2)
  | SASecond => (t_start t + Nat.div (t_dim t) 2, Nat.div (t_dim t) 2)%nat
  end.
Definition vrows (t : target) (s : vslot) : nat * nat :=
  match s with
  | Sb | Sl | Su => (t_start t, t_dim t)
  | SbFirst => (t_start t, Nat.div (t_dim t) 2)
  | SbSecond => (t_start t + Nat.div (t_dim t) 2, Nat.div (t_dim t) 2)%nat
  end.

(* CompiledAssignment.h:21-47 *)
Inductive assignT := COPY | ADD | SUB | MIN | MAX.
Inductive wmult := WNone | WMinus | WScalar (neg : bool) | WDiag (neg : bool).
(* ReferenceableData (Assignment.h:289-304): scalarWeight_, minusScalarWeight_,
   anisotropicWeight_, minusAnisotropicWeight_; the weights are used by reference *)
Record wdata := mkW { w_s : Q; w_ms : Q; w_a : vec; w_ma : vec }.
(* AssignBase: CompiledAssignment.h:264-339 *)
Definition applyA (a : assignT) (old new : Q) : Q :=
  match a with COPY => new | ADD => old + new | SUB => old - new | MIN => Qmin old new | MAX => Qmax old new end.
(* WeightMultBase: CompiledAssignment.h:341-421; i is the row *)
Definition applyW (d : wdata) (w : wmult) (i : nat) (x : Q) : Q :=
  match w with
  | WNone => x | WMinus => - x
  | WScalar neg => (if neg then w_ms d else w_s d) * x
  | WDiag neg => (if neg then w_ma d i else w_a d i) * x
  end.

(* matrix assignments: from J(x); J(x)*A(x,y) (MatrixMult GENERAL); A(x,y); zero *)
Inductive msrc := MJac (x : nat) | MProd (x y : nat) | MSub (x y : nat) | MZero.
Record masg := mkMA { ma_kind : assignT; ma_w : wmult; ma_src : msrc; ma_slot : mslot; ma_col : nat; ma_dim : nat }.
(* vector assignments: from e/l/u; from a constant; J(x)*b(x); b(x); zero *)
Inductive rhsf := Fe | Fl | Fu.
Inductive vsrc := VRhs (f : rhsf) | VConst (q : Q) | VProd (x : nat) | VSub (x : nat) | VZero.
Record vasg := mkVA { va_kind : assignT; va_w : wmult; va_src : vsrc; va_slot : vslot }.

Section Run.
Variable v_size : nat -> nat.
Variable V : values.
Variable d : wdata.
Variable t : target.
(* a sum of n terms *)
Fixpoint sumTo (f : nat -> Q) (n : nat) : Q := match n with O => 0 | S n' => sumTo f n' + f n' end.
(* applyMatrixMult: CompiledAssignment.h:440-461 *)
Definition msrcVal (s : msrc) (i k : nat) : Q :=
  match s with
  | MJac x => v_jac V x i k
  | MProd x y => sumTo (fun j => v_jac V x i j * v_sjac V x y j k) (v_size x)
  | MSub x y => v_sjac V x y i k
  | MZero => 0
  end.
Definition rhsVal (f : rhsf) : vec := match f with Fe => v_e V | Fl => v_l V | Fu => v_u V end.
Definition vsrcVal (s : vsrc) (i : nat) : Q :=
  match s with
  | VRhs f => rhsVal f i
  | VConst q => q
  | VProd x => sumTo (fun j => v_jac V x i j * v_sb V x j) (v_size x)
  | VSub x => v_sb V x i
  | VZero => 0
  end.
Definition inRange (i start dim : nat) : bool := Nat.leb start i && Nat.ltb i (start + dim).
(* CompiledAssignment::run (CompiledAssignment.h:626-653); a ZERO source is only used with
   COPY and NONE (setZero) *)
Definition runM (m : mem) (a : masg) : mem :=
  let (r0, rd) := mrows t (ma_slot a) in
  mkMem (fun r c => if inRange r r0 rd && inRange c (ma_col a) (ma_dim a)
                    then applyA (ma_kind a) (mA m r c) (applyW d (ma_w a) (r - r0) (msrcVal (ma_src a) (r - r0) (c - ma_col a)))
                    else mA m r c)
        (mb m) (ml m) (mu m).
Definition setV (s : vslot) (f : vec -> vec) (m : mem) : mem :=
  match s with
  | Sb | SbFirst | SbSecond => mkMem (mA m) (f (mb m)) (ml m) (mu m)
  | Sl => mkMem (mA m) (mb m) (f (ml m)) (mu m)
  | Su => mkMem (mA m) (mb m) (ml m) (f (mu m))
  end.
Definition runV (m : mem) (a : vasg) : mem :=
  let (r0, rd) := vrows t (va_slot a) in
  setV (va_slot a)
    (fun v r => if inRange r r0 rd
                then applyA (va_kind a) (v r) (applyW d (va_w a) (r - r0) (vsrcVal (va_src a) (r - r0)))
                else v r) m.
End Run.

(* SolvingRequirements as the assignment sees them: the value and whether it is default *)
Record reqs := mkReq { q_weight : Q; q_wdef : bool; q_aniso : vec; q_adef : bool; q_asize : nat }.
(* the members of the assignment: the weights, and the four lists of Assignment.h:262-278 *)
Record assignment := mkAsg {
  g_defS : bool; g_defA : bool;              (* useDefaultScalarWeight_, useDefaultAnisotropicWeight_ *)
  g_data : wdata;
  g_M : list masg; g_MS : list masg; g_V : list vasg; g_VS : list vasg
}.

Section Build.
Variable sqrtf : Q -> Q.
Variable big : Q.                              (* Assignment::big_ *)
Variable v_size : nat -> nat.
Variable mapping : nat -> option nat.          (* start of getMappingIn(variables); throws if absent *)
Variable src : source.
Variable tgt : target.
Variable sub : substs.
Variables defS defA : bool.

(* checkTarget: Assignment.cpp:130-180 *)
Definition checkTarget : res unit :=
  if ct_eqb (c_type src) EQUAL && negb (ct_eqb (t_type tgt) EQUAL || ct_eqb (t_type tgt) DOUBLE_SIDED) then Throw
  else if negb (ct_eqb (c_type src) EQUAL) && ct_eqb (t_type tgt) EQUAL then Throw
  else if (negb (rhs_eqb (c_rhs src) RZERO) || existsb (fun s => s_bnz (snd s)) sub) && rhs_eqb (t_rhs tgt) RZERO then Throw
  else if ct_eqb (c_type src) DOUBLE_SIDED && negb (ct_eqb (t_type tgt) DOUBLE_SIDED)
       then (if Nat.eqb (t_dim tgt) (2 * c_size src) then Ok tt else Throw)
       else (if Nat.eqb (t_dim tgt) (c_size src) then Ok tt else Throw).

(* createAssignment, createMultiplicationAssignment: Assignment.hpp:78-145 *)
Definition weightOf (flip : bool) : wmult :=
  if defA then (if defS then (if flip then WMinus else WNone) else WScalar flip) else WDiag flip.

Definition acc : Type := list masg * list masg * list vasg * list vasg.
Definition addMA (a : masg) (x : acc) : acc := let '(m, ms, v, vs) := x in (m ++ [a], ms, v, vs).
Definition addMS (a : masg) (x : acc) : acc := let '(m, ms, v, vs) := x in (m, ms ++ [a], v, vs).
Definition addVA (a : vasg) (x : acc) : acc := let '(m, ms, v, vs) := x in (m, ms, v ++ [a], vs).
Definition addVS (a : vasg) (x : acc) : acc := let '(m, ms, v, vs) := x in (m, ms, v, vs ++ [a]).
Definition cols (x : nat) : res (nat * nat) := match mapping x with Some c => Ok (c, v_size x) | None => Throw end.

(* addVectorAssignment(f, v, flip): Assignment.hpp:179-207 *)
Definition addVector (f : rhsf) (v : vslot) (flip : bool) (x : acc) : acc :=
  if negb (rhs_eqb (c_rhs src) RZERO) then
    let flip1 := if rhs_eqb (c_rhs src) OPPOSITE then negb flip else flip in
    let flip2 := if rhs_eqb (t_rhs tgt) OPPOSITE then negb flip1 else flip1 in
    addVA (mkVA COPY (weightOf flip2) (VRhs f) v) x
  else if negb (rhs_eqb (t_rhs tgt) RZERO) then addVA (mkVA COPY WNone VZero v) x
  else x.
(* addVectorAssignment(double, v): Assignment.hpp:244-250 *)
Definition addConst (q : Q) (v : vslot) (x : acc) : acc := addVA (mkVA COPY (weightOf false) (VConst q) v) x.
(* addMatrixAssignment: Assignment.cpp:414-421 *)
Definition addMatrix (y : nat) (M : mslot) (flip : bool) (x : acc) : res acc :=
  do (c, n) <- cols y; Ok (addMA (mkMA COPY (weightOf flip) (MJac y) M c n) x).
(* addZeroAssignment: Assignment.cpp:511-517 *)
Definition addZero (y : nat) (M : mslot) (x : acc) : res acc :=
  do (c, n) <- cols y; Ok (addMA (mkMA COPY WNone MZero M c n) x).
(* addMatrixSubstitutionAssignments: Assignment.cpp:423-464 *)
Fixpoint addMatrixSubs (y : nat) (M : mslot) (ys : list nat) (flip : bool) (x : acc) : res acc :=
  match ys with
  | [] => Ok x
  | z :: ys' =>
      do (c, n) <- cols z;
      let a := match c_prop src y with
               | PId => mkMA (if flip then SUB else ADD) (weightOf false) (MSub y z) M c n
               | PMinusId => mkMA (if flip then ADD else SUB) (weightOf false) (MSub y z) M c n
               | PGen => mkMA (if flip then SUB else ADD) (weightOf false) (MProd y z) M c n
               end in
      addMatrixSubs y M ys' flip (addMS a x)
  end.
(* addVectorSubstitutionAssignments: Assignment.cpp:466-509 *)
Definition addVectorSub (y : nat) (s : subst) (v : vslot) (flip : bool) (x : acc) : acc :=
  if s_bnz s then
    let f := if rhs_eqb (t_rhs tgt) AS_GIVEN then negb flip else flip in
    let a := match c_prop src y with
             | PId => mkVA (if f then SUB else ADD) (weightOf false) (VSub y) v
             | PMinusId => mkVA (if f then ADD else SUB) (weightOf false) (VSub y) v
             | PGen => mkVA (if f then SUB else ADD) (weightOf false) (VProd y) v
             end in
    addVS a x
  else x.

(* the variables substituted into, without repetition: Assignment.cpp:559-567 *)
Fixpoint substInto (xs : list nat) (l : list nat) : list nat :=
  match xs with
  | [] => l
  | x :: xs' =>
      let l1 := match findSub x sub with
                | Some s => fold_left (fun l y => if existsb (Nat.eqb y) l then l else l ++ [y]) (s_vars s) l
                | None => l end in
      substInto xs' l1
  end.
(* Assignment.cpp:568-575 *)
Fixpoint zeros (M : mslot) (l : list nat) (x : acc) : res acc :=
  match l with
  | [] => Ok x
  | y :: l' => if existsb (Nat.eqb y) (c_vars src) then zeros M l' x else do x1 <- addZero y M x; zeros M l' x1
  end.
(* Assignment.cpp:577-598 *)
Fixpoint perVar (M : mslot) (v1 : vslot) (v2 : option vslot) (flip : bool) (xs : list nat) (x : acc) : res acc :=
  match xs with
  | [] => Ok x
  | y :: xs' =>
      if Nat.eqb (v_size y) 0 then perVar M v1 v2 flip xs' x
      else match findSub y sub with
      | Some s =>
          do x1 <- addMatrixSubs y M (s_vars s) flip x;
          let x2 := addVectorSub y s v1 flip x1 in
          let x3 := match v2 with Some v => addVectorSub y s v flip x2 | None => x2 end in
          perVar M v1 v2 flip xs' x3
      | None => do x1 <- addMatrix y M flip x; perVar M v1 v2 flip xs' x1
      end
  end.
(* addAssignments: Assignment.cpp:519-599 *)
Definition addAssignments (M : mslot) (f1 : rhsf) (v1 : vslot) (fv2 : option (rhsf * vslot)) (flip : bool) (x : acc) : res acc :=
  let x1 := addVector f1 v1 flip x in
  let x2 := match fv2 with Some (f2, v2) => addVector f2 v2 flip x1 | None => x1 end in
  do x3 <- zeros M (substInto (c_vars src) []) x2;
  perVar M v1 (match fv2 with Some (_, v2) => Some v2 | None => None end) flip (c_vars src) x3.

(* build(variables): Assignment.cpp:190-294 *)
Definition buildLists : res acc :=
  let x0 : acc := ([], [], [], []) in
  match c_type src with
  | EQUAL =>
      match t_type tgt with
      | EQUAL => addAssignments SA Fe Sb None false x0
      | DOUBLE_SIDED => addAssignments SA Fe Sl (Some (Fe, Su)) false x0
      | _ => Throw
      end
  | DOUBLE_SIDED =>
      match t_type tgt with
      | DOUBLE_SIDED => addAssignments SA Fl Sl (Some (Fu, Su)) false x0
      | GREATER_THAN =>
          do x1 <- addAssignments SAFirst Fl SbFirst None false x0;
          addAssignments SASecond Fu SbSecond None true x1
      | _ =>
          do x1 <- addAssignments SAFirst Fu SbFirst None false x0;
          addAssignments SASecond Fl SbSecond None true x1
      end
  | st =>
      let flip := ct_eqb st LOWER_THAN in
      let f := if flip then Fu else Fl in
      match t_type tgt with
      | EQUAL => Throw
      | GREATER_THAN => addAssignments SA f Sb None flip x0
      | LOWER_THAN => addAssignments SA f Sb None (negb flip) x0
      | DOUBLE_SIDED =>
          if ct_eqb st GREATER_THAN then
            do x1 <- addAssignments SA f Sl None false x0; Ok (addConst big Su x1)
          else
            do x1 <- addAssignments SA f Su None false x0; Ok (addConst (- big) Sl x1)
      end
  end.
End Build.

(* processRequirements (L2): Assignment.cpp:370-412; None: no requirements *)
Definition sqrtv (sqrtf : Q -> Q) (s : Q) (v : vec) : vec := fun i => sqrtf (v i) * s.
Definition processReq (sqrtf : Q -> Q) (r : option reqs) (scal : Q) : bool * bool * wdata :=
  match r with
  | None => (true, true, mkW 1 (-(1)) (fun _ => 0) (fun _ => 0))
  | Some q =>
      let defS := q_wdef q && Qeq_bool scal 1 in
      let s := if defS then 1 else sqrtf (q_weight q) * scal in
      let a := if q_adef q then fun _ => 0 else sqrtv sqrtf s (q_aniso q) in
      (defS, q_adef q, mkW s (- s) a (if q_adef q then fun _ => 0 else fun i => - a i))
  end.
(* the constructor: Assignment.cpp:20-36 *)
Definition construct sqrtf big v_size mapping src tgt sub (r : option reqs) (scal : Q) : res assignment :=
  do _ <- checkTarget src tgt sub;
  let '(defS, defA, w) := processReq sqrtf r scal in
  do (x, vs) <- buildLists big v_size mapping src tgt sub defS defA;
  let '(m, ms, v) := x in
  Ok (mkAsg defS defA w m ms v vs).

(* run: Assignment.cpp:115-128 *)
Definition run (v_size : nat -> nat) (V : values) (t : target) (g : assignment) (m : mem) : mem :=
  let m1 := fold_left (runM v_size V (g_data g) t) (g_M g) m in
  let m2 := fold_left (runM v_size V (g_data g) t) (g_MS g) m1 in
  let m3 := fold_left (runV v_size V (g_data g) t) (g_V g) m2 in
  fold_left (runV v_size V (g_data g) t) (g_VS g) m3.

(* onUpdateWeights: Assignment.cpp:89-113; isConstant(1) on the n first entries *)
Definition onUpdateWeights (sqrtf : Q -> Q) (t : target) (q : reqs) (scal : Q) (scalar vector : bool) (g : assignment) : res assignment :=
  if scalar && (g_defS g && negb (Qeq_bool (q_weight q) 1)) then Throw
  else
    let w1 := if scalar then let s := sqrtf (q_weight q) * scal in mkW s (- s) (w_a (g_data g)) (w_ma (g_data g)) else g_data g in
    if vector && (negb (q_adef q) && negb (Nat.eqb (q_asize q) (t_dim t))) then Throw
    else if vector && (g_defA g && negb (q_adef q) && negb (forallb (fun i => Qeq_bool (q_aniso q i) 1) (seq 0 (q_asize q)))) then Throw
    else
      let w2 := if vector then let a := sqrtv sqrtf (w_s w1) (q_aniso q) in mkW (w_s w1) (w_ms w1) a (fun i => - a i) else w1 in
      Ok (mkAsg (g_defS g) (g_defA g) w2 (g_M g) (g_MS g) (g_V g) (g_VS g)).
(* updateWeights of the solver for one objective (src/solver/LeastSquareSolver.cpp:294-325) *)
Definition updateWeights sqrtf big v_size mapping src tgt sub (q : reqs) (scal : Q) (scalar vector : bool) (g : assignment) : res assignment :=
  if (scalar && g_defS g) || (vector && g_defA g)
  then construct sqrtf big v_size mapping src tgt sub (Some q) scal
  else onUpdateWeights sqrtf tgt q scal scalar vector g.
(* a sequence of such updates: the requirements at that time, and the flags of the event *)
Fixpoint updates sqrtf big v_size mapping src tgt sub (scal : Q) (us : list (reqs * bool * bool)) (g : assignment) : res assignment :=
  match us with
  | [] => Ok g
  | (q, sc, ve) :: us' => do g1 <- updateWeights sqrtf big v_size mapping src tgt sub q scal sc ve g; updates sqrtf big v_size mapping src tgt sub scal us' g1
  end.
(* the assignment runs at each solve, with the values of the time (LeastSquareSolver.cpp:148-149) *)
Definition runs v_size tgt g (Vs : list values) (m : mem) : mem := fold_left (fun m V => run v_size V tgt g m) Vs m.
(* updates and runs interleaved: each update is followed by any number of runs *)
Fixpoint life sqrtf big v_size mapping src tgt sub scal (h : list ((reqs * bool * bool) * list values)) (g : assignment) (m : mem) : res (assignment * mem) :=
  match h with
  | [] => Ok (g, m)
  | ((q, sc, ve), Vs) :: h' =>
      do g1 <- updateWeights sqrtf big v_size mapping src tgt sub q scal sc ve g;
      life sqrtf big v_size mapping src tgt sub scal h' g1 (runs v_size tgt g1 Vs m)
  end.
