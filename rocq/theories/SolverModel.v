(* Row layout of the least-square solvers and its incremental update.
   Sources: src/solver/LeastSquareSolver.cpp, include/tvm/solver/abstract/LeastSquareSolver.h,
   src/solver/{QLD,Quadprog,LSSOL,LexLS}LeastSquareSolver.cpp.

   What is modelled: the row counters, the four maps from constraints to assignments, the
   shapes of the matrices and vectors held by each solver, the views on them held by the
   assignments, the column mapping of the assignments, and which cell of which matrix is
   written by which constraint at the next solve().
   What is not modelled here: the values written (AssignModel.v, BoundModel.v), weight events
   (C23), substitutions, the numerical solver itself. *)
From Coq Require Import List Bool Arith.
Import ListNotations.
From Verif Require Import Base.

(* A variable: only its identity and size matter here. *)
Record var := mkVar { v_id : nat; v_size : nat }.

(* The part of LinearConstraint used by the solvers: id(), size(), isEquality(),
   type() == DOUBLE_SIDED, variables().  [c_diag] is used for bounds only: the jacobian of the
   bound is diagonal but neither I nor -I (Assignment.hpp 50-75).  [c_l2]: for objectives,
   the requirements ask for the L2 violation evaluation. *)
Record cstr := mkC { c_id : nat; c_size : nat; c_eq : bool; c_double : bool;
                     c_vars : list var; c_diag : bool; c_l2 : bool }.

(* The four solvers; the argument is the option [cholesky]. *)
Inductive kind := QLD (chol : bool) | Quadprog (chol : bool) | LSSOL | LexLS.

(* handleDoubleSidedConstraint_ : QLDLeastSquareSolver.h and QuadprogLeastSquareSolver.h return
   false, LSSOLLeastSquareSolver.h and LexLSLeastSquareSolver.h return true. *)
Definition native (k : kind) : bool :=
  match k with QLD _ | Quadprog _ => false | LSSOL | LexLS => true end.

(* LeastSquareSolver::constraintSize, LeastSquareSolver.cpp 171-181 *)
Definition constraintSize (k : kind) (c : cstr) : nat :=
  if negb (c_double c) || native k then c_size c else 2 * c_size c.

(* ---- Eigen objects and views ---- *)

(* A MatrixXd or VectorXd member.  [o_gen] changes each time its shape changes: a view taken
   before that is no longer a view on the object (its pointer or its outer stride is wrong).
   When the shape does not change Eigen's resize keeps the buffer. *)
Record obj := mkObj { o_gen : nat; o_rows : nat; o_cols : nat }.

(* Eigen::PlainObjectBase::resize *)
Definition resize (o : obj) (r c : nat) : obj :=
  if (o_rows o =? r) && (o_cols o =? c) then o else mkObj (S (o_gen o)) r c.

(* ImpactFromChanges::willReallocate, LeastSquareSolver.h 238-242: only the products are
   compared. *)
Definition willReallocate (o : obj) (r c : nat) : bool :=
  negb (o_rows o * o_cols o =? r * c).

(* The members of the solvers, by role:
           MObj    VObj  MCstr   V1      V2    V3
   QLD     D_      e_    A_      b_      xl_   xu_
   Quadprog D_     e_    A_      b_      -     -      (xl_, xu_ are segments of b_)
   LSSOL   A_      b_    C_      l_      u_    -
   LexLS   data2_  -     data1_  data0_  -     -                                          *)
Inductive slot := MObj | VObj | MCstr | V1 | V2 | V3.

(* A Ref/Block on such a member: [w_r0],[w_c0] its first row and column in the member, and its
   shape.  Vectors have one column. *)
Record view := mkView { w_slot : slot; w_gen : nat; w_r0 : nat; w_c0 : nat;
                        w_rows : nat; w_cols : nat }.

(* The members, together with the sizes given to the last call to resize_ (the blocks Aineq_,
   bineq_, cl_, cu_, A1_, l1_ ... are reconstructed by resize_ from these). *)
Record store := mkStore {
  s_n : nat; s_nObj : nat; s_nEq : nat; s_nIneq : nat; s_ub : bool;
  mObj : obj; vObj : obj; mCstr : obj; v1 : obj; v2 : obj; v3 : obj }.

Definition get (s : store) (sl : slot) : obj :=
  match sl with MObj => mObj s | VObj => vObj s | MCstr => mCstr s
              | V1 => v1 s | V2 => v2 s | V3 => v3 s end.

Definition block (s : store) (sl : slot) (r0 c0 rows cols : nat) : view :=
  mkView sl (o_gen (get s sl)) r0 c0 rows cols.
Definition whole (s : store) (sl : slot) : view :=
  block s sl 0 0 (o_rows (get s sl)) (o_cols (get s sl)).

(* The data of a target: the matrix (none for a bound) and the vector(s). *)
Record tdata := mkD { d_mat : option view; d_vec : list view }.

(* The targets built by addEqualityConstraint_ and given to changeData by
   updateEqualityTargetData: QLD 82-87 and 173-174, Quadprog 113-118 and 234-235,
   LSSOL 99-104 and 180-181, LexLS 122-127 and 219-220. *)
Definition eqData (k : kind) (s : store) : tdata :=
  let nC := s_nEq s + s_nIneq s in
  match k with
  | QLD _ | Quadprog _ => mkD (Some (whole s MCstr)) [whole s V1]
  | LSSOL => mkD (Some (whole s MCstr))
                 [block s V1 (o_rows (v1 s) - nC) 0 nC 1; block s V2 (o_rows (v2 s) - nC) 0 nC 1]
  | LexLS => mkD (Some (block s MCstr 0 0 (o_rows (mCstr s)) (s_n s)))
                 [block s MCstr 0 (s_n s) (o_rows (mCstr s)) 1;
                  block s MCstr 0 (S (s_n s)) (o_rows (mCstr s)) 1]
  end.

(* Same for the inequality constraints: QLD 89-95 (Aineq_ = A_.bottomRows(nIneq),
   bineq_ = b_.tail(nIneq), lines 58-59), Quadprog 120-125 (Aineq_ = A_.middleRows(nEq,nIneq),
   bineq_ = b_.segment(nEq,nIneq), lines 82-83), LSSOL and LexLS as for the equalities. *)
Definition ineqData (k : kind) (s : store) : tdata :=
  match k with
  | QLD _ => mkD (Some (block s MCstr (o_rows (mCstr s) - s_nIneq s) 0 (s_nIneq s) (o_cols (mCstr s))))
                 [block s V1 (o_rows (v1 s) - s_nIneq s) 0 (s_nIneq s) 1]
  | Quadprog _ => mkD (Some (block s MCstr (s_nEq s) 0 (s_nIneq s) (o_cols (mCstr s))))
                      [block s V1 (s_nEq s) 0 (s_nIneq s) 1]
  | LSSOL | LexLS => eqData k s
  end.

(* Objectives: QLD 97-102, Quadprog 127-134, LSSOL 113-120, LexLS 136-143. *)
Definition objData (k : kind) (s : store) : tdata :=
  match k with
  | QLD _ | Quadprog _ | LSSOL => mkD (Some (whole s MObj)) [whole s VObj]
  | LexLS => mkD (Some (block s MObj 0 0 (o_rows (mObj s)) (s_n s)))
                 [block s MObj 0 (s_n s) (o_rows (mObj s)) 1;
                  block s MObj 0 (S (s_n s)) (o_rows (mObj s)) 1]
  end.

(* Bounds: QLD 76-80 (xl_, xu_), Quadprog 101-111 (segments of b_, lines 67-68 and 79-80),
   LSSOL 93-97 (l_, u_), LexLS 116-120 (columns of data0_). *)
Definition bndData (k : kind) (s : store) : tdata :=
  let nC := s_nEq s + s_nIneq s in
  match k with
  | QLD _ => mkD None [whole s V2; whole s V3]
  | Quadprog _ =>
      if s_ub s then mkD None [block s V1 nC 0 (s_n s) 1; block s V1 (nC + s_n s) 0 (s_n s) 1]
      else mkD None [block s V1 nC 0 0 1; block s V1 nC 0 0 1]
  | LSSOL => mkD None [whole s V1; whole s V2]
  | LexLS => mkD None [block s V1 0 0 (o_rows (v1 s)) 1; block s V1 0 1 (o_rows (v1 s)) 1]
  end.

(* struct ImpactFromChanges, LeastSquareSolver.h 110-126; operator|| *)
Record impact := mkImp { i_eq : bool; i_ineq : bool; i_bnd : bool; i_obj : bool }.
Definition impOr (a b : impact) : impact :=
  mkImp (i_eq a || i_eq b) (i_ineq a || i_ineq b) (i_bnd a || i_bnd b) (i_obj a || i_obj b).

(* applyImpactLogic: QLD 185-189, Quadprog 246-252, LSSOL 192-198, LexLS 231-237 *)
Definition applyImpactLogic (k : kind) (i : impact) : impact :=
  match k with
  | QLD _ => mkImp (i_eq i) (i_ineq i || i_eq i) (i_bnd i) (i_obj i)
  | Quadprog _ =>
      let q := i_ineq i || i_eq i in mkImp (i_eq i) q (i_bnd i || q) (i_obj i)
  | LSSOL | LexLS =>
      let q := i_ineq i || i_eq i in mkImp (i_eq i || q) q (i_bnd i) (i_obj i)
  end.

(* resize_: QLD 27-74, Quadprog 28-99, LSSOL 64-91, LexLS 53-114.  [n] is
   variables().totalSize(). *)
Definition resize_ (k : kind) (n nObj nEq nIneq : nat) (ub : bool) (s : store)
  : store * impact :=
  let nC := nEq + nIneq in
  match k with
  | QLD ch =>
      let dr := if ch && (nObj <? n) then nObj + n else nObj in
      (mkStore n nObj nEq nIneq ub
               (resize (mObj s) dr n) (resize (vObj s) nObj 1)
               (resize (mCstr s) nC n) (resize (v1 s) nC 1)
               (resize (v2 s) n 1) (resize (v3 s) n 1),
       let e := willReallocate (mCstr s) nC n in
       mkImp e e (willReallocate (v2 s) n 1) (willReallocate (mObj s) dr n))
  | Quadprog ch =>
      let dr := if ch && (nObj <? n) then nObj + n else nObj in
      let ar := if ub then nC + 2 * n else nC in
      (mkStore n nObj nEq nIneq ub
               (resize (mObj s) dr n) (resize (vObj s) nObj 1)
               (resize (mCstr s) ar n) (resize (v1 s) ar 1) (v2 s) (v3 s),
       let e := willReallocate (mCstr s) ar n in
       mkImp e e e (willReallocate (mObj s) dr n))
  | LSSOL =>
      (mkStore n nObj nEq nIneq ub
               (resize (mObj s) nObj n) (resize (vObj s) nObj 1)
               (resize (mCstr s) nC n) (resize (v1 s) (nC + n) 1)
               (resize (v2 s) (nC + n) 1) (v3 s),
       let e := willReallocate (mCstr s) nC n in
       mkImp e e (willReallocate (v1 s) (nC + n) 1 || e) (willReallocate (mObj s) nObj n))
  | LexLS =>
      (mkStore n nObj nEq nIneq ub
               (resize (mObj s) nObj (n + 2)) (vObj s)
               (resize (mCstr s) nC (n + 2)) (resize (v1 s) n 2) (v2 s) (v3 s),
       let e := willReallocate (mCstr s) nC (n + 2) in
       mkImp e e (willReallocate (v1 s) n 2) (willReallocate (mObj s) nObj (n + 2)))
  end.

(* ---- Assignments and maps ---- *)

(* The part of an Assignment that depends on the layout: the constraint, the target (range and
   data), the column ranges of the variables (MatrixAssignment::colRange), and the views the
   compiled assignments actually write to, as last computed by the constructor or by
   onUpdatedTarget: [g_rows],[g_data],[g_cols]. *)
Record asg := mkA { a_c : cstr; a_start : nat; a_dim : nat; a_data : tdata;
                    a_cols : list nat;
                    g_start : nat; g_data : tdata; g_cols : list nat }.

(* std::map<LinearConstraint*, vector<MarkedAssignment*>, IdLess> (LeastSquareSolver.h 183-187),
   iterated by increasing id.  assignments_ is the union of what the four maps point to. *)
Definition cmap := list (cstr * list asg).

Fixpoint minsert (c : cstr) (a : asg) (m : cmap) : cmap :=
  match m with
  | [] => [(c, [a])]
  | (d, l) :: m' =>
      if c_id c =? c_id d then (d, l ++ [a]) :: m'
      else if c_id c <? c_id d then (c, [a]) :: (d, l) :: m'
      else (d, l) :: minsert c a m'
  end.

Fixpoint merase (c : cstr) (m : cmap) : cmap :=
  match m with
  | [] => []
  | (d, l) :: m' => if c_id c =? c_id d then m' else (d, l) :: merase c m'
  end.

Record state := mkSt {
  st_vars : list var;                        (* *variables_ *)
  st_nEq : nat; st_nIneq : nat; st_nObj : nat;
  st_eqSize : nat; st_ineqSize : nat; st_objSize : nat;
  st_build : bool;                           (* buildInProgress_ *)
  st_minNorm : bool;                         (* autoMinNorm_ of the derived class *)
  st_eq : cmap; st_ineq : cmap; st_bnd : cmap; st_obj : cmap;
  st_store : store }.

Definition totalSize (vs : list var) : nat := list_sum (map v_size vs).

(* Variable::getMappingIn(VariableVector), Variable.cpp 191-201, for variables that are in the
   vector as such (no sub-variable): the start of the range, or an exception. *)
Fixpoint mappingIn (v : var) (vs : list var) : res nat :=
  match vs with
  | [] => Throw
  | w :: vs' => if v_id v =? v_id w then Ok 0
                else do o <- mappingIn v vs'; Ok (v_size w + o)
  end.

Fixpoint mappings (l : list var) (vs : list var) : res (list nat) :=
  match l with
  | [] => Ok []
  | v :: l' => do o <- mappingIn v vs; do r <- mappings l' vs; Ok (o :: r)
  end.

(* Assignment::Assignment, for a general constraint: compiles the assignments for the current
   target and variables. *)
Definition mkAssign (c : cstr) (start dim : nat) (d : tdata) (vs : list var) : res asg :=
  do cols <- mappings (c_vars c) vs; Ok (mkA c start dim d cols start d cols).

(* nextEqualityConstraintRange_ and nextInequalityConstraintRange_ (start, dim):
   QLD 158-162, Quadprog 218-223, LSSOL 165-169, LexLS 204-208 *)
Definition nextEq (k : kind) (e i : nat) (c : cstr) : nat * nat :=
  match k with QLD _ | Quadprog _ => (e, c_size c) | LSSOL | LexLS => (e + i, c_size c) end.
Definition nextIneq (k : kind) (e i : nat) (c : cstr) : nat * nat :=
  match k with QLD _ | Quadprog _ => (i, constraintSize k c)
             | LSSOL | LexLS => (e + i, c_size c) end.

(* LeastSquareSolver::startBuild 46-75 with initializeBuild_ of the derived classes.  QLD, LSSOL
   and LexLS ignore useBounds. *)
Definition startBuild (k : kind) (x : list var) (nObj nEq nIneq : nat) (ub : bool) (st : state)
  : state :=
  mkSt x nEq nIneq nObj 0 0 0 true false [] [] [] []
       (fst (resize_ k (totalSize x) nObj nEq nIneq ub (st_store st))).

(* finalizeBuild 77-83 (the asserts are not modelled: they are what C26 states). *)
Definition finalizeBuild (st : state) : state :=
  mkSt (st_vars st) (st_nEq st) (st_nIneq st) (st_nObj st)
       (st_eqSize st) (st_ineqSize st) (st_objSize st) false (st_minNorm st)
       (st_eq st) (st_ineq st) (st_bnd st) (st_obj st) (st_store st).

(* addBound 85-94 *)
Definition addBound (k : kind) (b : cstr) (st : state) : res state :=
  if negb (st_build st) then UB
  else match c_vars b with
       | [v] =>
           do o <- mappingIn v (st_vars st);
           let d := bndData k (st_store st) in
           let a := mkA b o (v_size v) d [] o d [] in
           Ok (mkSt (st_vars st) (st_nEq st) (st_nIneq st) (st_nObj st)
                    (st_eqSize st) (st_ineqSize st) (st_objSize st) (st_build st) (st_minNorm st)
                    (st_eq st) (st_ineq st) (minsert b a (st_bnd st)) (st_obj st) (st_store st))
       | _ => UB
       end.

(* addConstraint 96-112 *)
Definition addConstraint (k : kind) (c : cstr) (st : state) : res state :=
  if negb (st_build st) then UB
  else if c_eq c then
    let '(s, d) := nextEq k (st_eqSize st) (st_ineqSize st) c in
    do a <- mkAssign c s d (eqData k (st_store st)) (st_vars st);
    Ok (mkSt (st_vars st) (st_nEq st) (st_nIneq st) (st_nObj st)
             (st_eqSize st + constraintSize k c) (st_ineqSize st) (st_objSize st)
             (st_build st) (st_minNorm st)
             (minsert c a (st_eq st)) (st_ineq st) (st_bnd st) (st_obj st) (st_store st))
  else
    let '(s, d) := nextIneq k (st_eqSize st) (st_ineqSize st) c in
    do a <- mkAssign c s d (ineqData k (st_store st)) (st_vars st);
    Ok (mkSt (st_vars st) (st_nEq st) (st_nIneq st) (st_nObj st)
             (st_eqSize st) (st_ineqSize st + constraintSize k c) (st_objSize st)
             (st_build st) (st_minNorm st)
             (st_eq st) (minsert c a (st_ineq st)) (st_bnd st) (st_obj st) (st_store st)).

(* addObjective 114-127; nextObjectiveRange_ is {objSize_, size()} for the four solvers *)
Definition addObjective (k : kind) (o : cstr) (st : state) : res state :=
  if negb (st_build st) then UB
  else if negb (c_l2 o) then Throw
  else
    do a <- mkAssign o (st_objSize st) (c_size o) (objData k (st_store st)) (st_vars st);
    Ok (mkSt (st_vars st) (st_nEq st) (st_nIneq st) (st_nObj st)
             (st_eqSize st) (st_ineqSize st) (st_objSize st + c_size o)
             (st_build st) (st_minNorm st)
             (st_eq st) (st_ineq st) (st_bnd st) (minsert o a (st_obj st)) (st_store st)).

(* setMinimumNorm 129-137: the cost becomes |x|^2 and the rows of the objective are no longer
   those of the assignments. *)
Definition setMinimumNorm (st : state) : res state :=
  if negb (st_nObj st =? totalSize (st_vars st)) then UB
  else if negb (st_build st) then Throw
  else Ok (mkSt (st_vars st) (st_nEq st) (st_nIneq st) (st_nObj st)
                (st_eqSize st) (st_ineqSize st) (st_objSize st) (st_build st) true
                (st_eq st) (st_ineq st) (st_bnd st) (st_obj st) (st_store st)).

(* ---- process ---- *)

(* internal::SolverEvents, without the weight events.  [ev_var]: an added, removed or hidden
   variable change (updateVariables, 327-328). *)
Record events := mkEv {
  ev_remC : list cstr; ev_addC : list cstr; ev_remB : list cstr; ev_addB : list cstr;
  ev_remO : list cstr; ev_addO : list cstr; ev_var : bool }.

Definition isNil {A} (l : list A) : bool := match l with [] => true | _ => false end.

(* nX_ -= size; going below zero would later give a negative size to Eigen: UB. *)
Definition dec (n s : nat) : res nat := if n <? s then UB else Ok (n - s).

(* processRemovedConstraints 330-378: the three loops.  The erased assignments disappear from
   assignments_ as well. *)
Fixpoint remCs (k : kind) (l : list cstr) (st : state) : res state :=
  match l with
  | [] => Ok st
  | c :: l' =>
      do st' <- (if c_eq c then
                   do n <- dec (st_nEq st) (constraintSize k c);
                   Ok (mkSt (st_vars st) n (st_nIneq st) (st_nObj st)
                            (st_eqSize st) (st_ineqSize st) (st_objSize st)
                            (st_build st) (st_minNorm st)
                            (merase c (st_eq st)) (st_ineq st) (st_bnd st) (st_obj st)
                            (st_store st))
                 else
                   do n <- dec (st_nIneq st) (constraintSize k c);
                   Ok (mkSt (st_vars st) (st_nEq st) n (st_nObj st)
                            (st_eqSize st) (st_ineqSize st) (st_objSize st)
                            (st_build st) (st_minNorm st)
                            (st_eq st) (merase c (st_ineq st)) (st_bnd st) (st_obj st)
                            (st_store st)));
      remCs k l' st'
  end.

Fixpoint remOs (l : list cstr) (st : state) : res state :=
  match l with
  | [] => Ok st
  | o :: l' =>
      do n <- dec (st_nObj st) (c_size o);
      remOs l' (mkSt (st_vars st) (st_nEq st) (st_nIneq st) n
                     (st_eqSize st) (st_ineqSize st) (st_objSize st)
                     (st_build st) (st_minNorm st)
                     (st_eq st) (st_ineq st) (st_bnd st) (merase o (st_obj st)) (st_store st))
  end.

Definition remBs (l : list cstr) (st : state) : state :=
  mkSt (st_vars st) (st_nEq st) (st_nIneq st) (st_nObj st)
       (st_eqSize st) (st_ineqSize st) (st_objSize st) (st_build st) (st_minNorm st)
       (st_eq st) (st_ineq st) (fold_left (fun m b => merase b m) l (st_bnd st)) (st_obj st)
       (st_store st).

Definition sumSizes (f : cstr -> nat) (l : list cstr) : nat := list_sum (map f l).

(* previewAddedConstraints 380-402: sizes are those before the additions, counters those
   after. *)
Definition preview (k : kind) (ev : events) (st : state) : state :=
  mkSt (st_vars st)
       (st_nEq st + sumSizes (constraintSize k) (filter c_eq (ev_addC ev)))
       (st_nIneq st + sumSizes (constraintSize k) (filter (fun c => negb (c_eq c)) (ev_addC ev)))
       (st_nObj st + sumSizes c_size (ev_addO ev))
       (st_nEq st) (st_nIneq st) (st_nObj st) (st_build st) (st_minNorm st)
       (st_eq st) (st_ineq st) (st_bnd st) (st_obj st) (st_store st).

Definition impactRemove (k : kind) (ev : events) : impact :=
  applyImpactLogic k
    (mkImp (negb (isNil (ev_remC ev))) (negb (isNil (ev_remC ev)))
           (negb (isNil (ev_remB ev))) (negb (isNil (ev_remO ev)))).

Definition impactAdd (k : kind) (ev : events) (st : state) : impact :=
  applyImpactLogic k
    (mkImp (negb (st_nEq st =? st_eqSize st)) (negb (st_nIneq st =? st_ineqSize st))
           false (negb (isNil (ev_addO ev)))).

(* Effects on one assignment *)
Definition setStart (s : nat) (a : asg) : asg :=
  mkA (a_c a) s (a_dim a) (a_data a) (a_cols a) (g_start a) (g_data a) (g_cols a).
Definition setData (d : tdata) (a : asg) : asg :=
  mkA (a_c a) (a_start a) (a_dim a) d (a_cols a) (g_start a) (g_data a) (g_cols a).
(* Assignment::onUpdatedMapping(newVar, false), Assignment.cpp 81-87: only the column ranges;
   nothing for a bound (it has no matrix assignment). *)
Definition onUpdatedMapping (vs : list var) (a : asg) : res asg :=
  match d_mat (a_data a) with
  | None => Ok a
  | Some _ =>
      do cols <- mappings (c_vars (a_c a)) vs;
      Ok (mkA (a_c a) (a_start a) (a_dim a) (a_data a) cols (g_start a) (g_data a) (g_cols a))
  end.
(* Assignment::onUpdatedTarget 69-79.  For a bound whose jacobian is diagonal but neither I nor
   -I, the list vectorAssignments_ contains assignments to temporaries whose getTargetVector is
   a null member pointer (Assignment.hpp 53-74, 170-173, 196, 231): calling through it is UB. *)
Definition onUpdatedTarget (a : asg) : res asg :=
  match d_mat (a_data a) with
  | None => if c_diag (a_c a) then UB
            else Ok (mkA (a_c a) (a_start a) (a_dim a) (a_data a) (a_cols a)
                         (a_start a) (a_data a) (a_cols a))
  | Some _ => Ok (mkA (a_c a) (a_start a) (a_dim a) (a_data a) (a_cols a)
                      (a_start a) (a_data a) (a_cols a))
  end.

Fixpoint traverse {A B} (f : A -> res B) (l : list A) : res (list B) :=
  match l with
  | [] => Ok []
  | a :: l' => do b <- f a; do r <- traverse f l'; Ok (b :: r)
  end.
Definition mmapR (f : asg -> res asg) (m : cmap) : res cmap :=
  traverse (fun p => do l <- traverse f (snd p); Ok (fst p, l)) m.
Definition mmap (f : asg -> asg) (m : cmap) : cmap :=
  map (fun p => (fst p, map f (snd p))) m.

(* updateTargetRange 202-210 for a map of general constraints or objectives: [next] is the
   range provider as a function of the accumulator. *)
Fixpoint reRange (next : nat -> cstr -> nat) (size : cstr -> nat) (m : cmap) (cum : nat)
  : cmap * nat :=
  match m with
  | [] => ([], cum)
  | (c, l) :: m' =>
      let '(m'', cum') := reRange next size m' (cum + size c) in
      ((c, map (setStart (next cum c)) l) :: m'', cum')
  end.

(* updateTargetRange for the bounds 232-235 *)
Definition reRangeB (vs : list var) (m : cmap) : res cmap :=
  traverse (fun p => match c_vars (fst p) with
                     | v :: _ => do o <- mappingIn v vs; Ok (fst p, map (setStart o) (snd p))
                     | [] => UB
                     end) m.

Definition whenR (b : bool) (f : cmap -> res cmap) (m : cmap) : res cmap :=
  if b then f m else Ok m.

(* process 183-292 after processRemovedConstraints, previewAddedConstraints and resize_; up to,
   but excluding, processAddedConstraints. *)
Definition retarget (k : kind) (imp impResize : impact) (nv : bool) (st : state) : res state :=
  let vs := st_vars st in
  (* onUpdatedMapping 191-195 *)
  do e0 <- whenR nv (mmapR (onUpdatedMapping vs)) (st_eq st);
  do i0 <- whenR nv (mmapR (onUpdatedMapping vs)) (st_ineq st);
  do b0 <- whenR nv (mmapR (onUpdatedMapping vs)) (st_bnd st);
  do o0 <- whenR nv (mmapR (onUpdatedMapping vs)) (st_obj st);
  (* accumulators 213-218 *)
  let es := if i_eq imp then 0 else st_eqSize st in
  let is := if i_ineq imp then 0 else st_ineqSize st in
  let os := if i_obj imp then 0 else st_objSize st in
  (* ranges 220-240 *)
  let '(e1, es1) := if i_eq imp then reRange (fun a c => fst (nextEq k a is c)) (constraintSize k) e0 es
                    else (e0, es) in
  let '(i1, is1) := if i_ineq imp then reRange (fun a c => fst (nextIneq k es1 a c)) (constraintSize k) i0 is
                    else (i0, is) in
  do b1 <- whenR (i_bnd imp || nv) (reRangeB vs) b0;
  let '(o1, os1) := if i_obj imp then reRange (fun a _ => a) c_size o0 os else (o0, os) in
  (* data 251-263 *)
  let imp2 := applyImpactLogic k (impOr imp impResize) in
  let s := st_store st in
  let e2 := if i_eq imp2 then mmap (setData (eqData k s)) e1 else e1 in
  let i2 := if i_ineq imp2 then mmap (setData (ineqData k s)) i1 else i1 in
  let b2 := if i_bnd imp2 then mmap (setData (bndData k s)) b1 else b1 in
  let o2 := if i_obj imp2 then mmap (setData (objData k s)) o1 else o1 in
  (* final update 266-289 *)
  do e3 <- whenR (nv || i_eq imp2) (mmapR onUpdatedTarget) e2;
  do i3 <- whenR (nv || i_ineq imp2) (mmapR onUpdatedTarget) i2;
  do b3 <- whenR (nv || i_bnd imp2) (mmapR onUpdatedTarget) b2;
  do o3 <- whenR (nv || i_obj imp2) (mmapR onUpdatedTarget) o2;
  Ok (mkSt vs (st_nEq st) (st_nIneq st) (st_nObj st) es1 is1 os1 (st_build st) (st_minNorm st)
           e3 i3 b3 o3 s).

Fixpoint foldR {A} (f : A -> state -> res state) (l : list A) (st : state) : res state :=
  match l with [] => Ok st | a :: l' => do st' <- f a st; foldR f l' st' end.

Definition setBuild (b : bool) (st : state) : state :=
  mkSt (st_vars st) (st_nEq st) (st_nIneq st) (st_nObj st)
       (st_eqSize st) (st_ineqSize st) (st_objSize st) b (st_minNorm st)
       (st_eq st) (st_ineq st) (st_bnd st) (st_obj st) (st_store st).

(* processAddedConstraints 404-420 *)
Definition processAdded (k : kind) (ev : events) (st : state) : res state :=
  do s1 <- foldR (addConstraint k) (ev_addC ev) (setBuild true st);
  do s2 <- foldR (addBound k) (ev_addB ev) s1;
  do s3 <- foldR (addObjective k) (ev_addO ev) s2;
  Ok (setBuild false s3).

Definition setStore (vs : list var) (s : store) (st : state) : state :=
  mkSt vs (st_nEq st) (st_nIneq st) (st_nObj st)
       (st_eqSize st) (st_ineqSize st) (st_objSize st) (st_build st) (st_minNorm st)
       (st_eq st) (st_ineq st) (st_bnd st) (st_obj st) s.

(* LeastSquareSolver::process 183-292.  [vs] is the content of the vector of variables pointed
   to by variables_ at the time of the call (the caller updates it beforehand). *)
Definition process (k : kind) (vs : list var) (ev : events) (st : state) : res state :=
  do st1 <- remCs k (ev_remC ev) st;
  do st2 <- remOs (ev_remO ev) st1;
  let st3 := remBs (ev_remB ev) st2 in
  let st4 := preview k ev st3 in
  let ub := negb (isNil (st_bnd st4)) || negb (isNil (ev_addB ev)) in
  let '(s, impResize) :=
    resize_ k (totalSize vs) (st_nObj st4) (st_nEq st4) (st_nIneq st4) ub (st_store st4) in
  let imp := impOr (impactRemove k ev) (impactAdd k ev st4) in
  do st5 <- retarget k imp impResize (ev_var ev) (setStore vs s st4);
  processAdded k ev st5.

(* ---- What the next solve() hands to the numerical solver ---- *)

(* Content of a cell: coefficient of the [j]-th coordinate of variable [v] in the [i]-th row
   assigned for constraint [c]; or right-hand side of that row. *)
Inductive content := Coef (c i v j : nat) | Rhs (c i : nat).

Definition cellkey := (slot * nat * nat)%type.

Definition slot_eqb (a b : slot) : bool :=
  match a, b with MObj, MObj | VObj, VObj | MCstr, MCstr | V1, V1 | V2, V2 | V3, V3 => true
                | _, _ => false end.
Definition key_eqb (a b : cellkey) : bool :=
  let '(s, r, c) := a in let '(s', r', c') := b in slot_eqb s s' && (r =? r') && (c =? c').

(* Writing at (r, c) of a view.  A view older than the last change of shape of the object, or
   a cell outside of the view, is UB. *)
Definition writeAt (s : store) (w : view) (r c : nat) (x : content) : res (cellkey * content) :=
  if (w_gen w =? o_gen (get s (w_slot w))) && (r <? w_rows w) && (c <? w_cols w)
  then Ok ((w_slot w, w_r0 w + r, w_c0 w + c), x) else UB.

(* Assignment::run for the compiled assignments of [a]: every row of the range, every
   coordinate of every variable, and the vector(s). *)
Definition cellsMat (a : asg) : list (nat * nat * content) :=
  flat_map (fun i =>
    flat_map (fun p => map (fun j => (g_start a + i, snd p + j, Coef (c_id (a_c a)) i (v_id (fst p)) j))
                           (seq 0 (v_size (fst p))))
             (combine (c_vars (a_c a)) (g_cols a)))
    (seq 0 (a_dim a)).
Definition cellsVec (a : asg) : list (nat * nat * content) :=
  map (fun i => (g_start a + i, 0, Rhs (c_id (a_c a)) i)) (seq 0 (a_dim a)).

Definition writes (s : store) (a : asg) : res (list (cellkey * content)) :=
  do m <- match d_mat (g_data a) with
          | None => Ok []
          | Some w => traverse (fun x => writeAt s w (fst (fst x)) (snd (fst x)) (snd x)) (cellsMat a)
          end;
  do v <- traverse (fun w => traverse (fun x => writeAt s w (fst (fst x)) (snd (fst x)) (snd x))
                                      (cellsVec a)) (d_vec (g_data a));
  Ok (m ++ concat v).

Definition asgs (m : cmap) : list asg := flat_map snd m.
Definition allAsgs (st : state) : list asg :=
  asgs (st_eq st) ++ asgs (st_ineq st) ++ asgs (st_bnd st) ++ asgs (st_obj st).

(* LeastSquareSolver::solve 139-167: the matrices are those zeroed by resize_ and by
   preAssignmentProcess_, then every assignment runs.  Throws while in build mode. *)
Definition runAssignments (st : state) : res (list (cellkey * content)) :=
  if st_build st then Throw
  else do l <- traverse (writes (st_store st)) (allAsgs st); Ok (concat l).

(* What was written in a cell; [] is a cell left as set by resize_. *)
Definition cell (l : list (cellkey * content)) (key : cellkey) : list content :=
  map snd (filter (fun p => key_eqb key (fst p)) l).

(* A row handed to the solver: its coefficients and its right-hand side(s). *)
Definition row := (list (list content) * list (list content))%type.

Definition readRow (l : list (cellkey * content)) (n : nat) (mat : slot) (vecs : list cellkey) (r : nat)
  : row :=
  (map (fun c => cell l (mat, r, c)) (seq 0 n),
   map (fun v => let '(s, r0, c0) := v in cell l (s, r0 + r, c0)) vecs).

(* The constraint rows read by solve_: QLD 143-154 (A_, b_, the first nEq_ rows are equalities),
   Quadprog 201-214 (A_.topRows(nEq_), then the following ones), LSSOL 149-155 (C_, l_ and u_
   whose first n entries are the bounds), LexLS 162-183 (data1_).  For LSSOL and LexLS equalities
   and inequalities are in the same list of double-sided rows. *)
Definition rhsKeys (k : kind) (n : nat) : list cellkey :=
  match k with
  | QLD _ | Quadprog _ => [(V1, 0, 0)]
  | LSSOL => [(V1, n, 0); (V2, n, 0)]
  | LexLS => [(MCstr, 0, n); (MCstr, 0, S n)]
  end.
Definition objKeys (k : kind) (n : nat) : list cellkey :=
  match k with
  | QLD _ | Quadprog _ | LSSOL => [(VObj, 0, 0)]
  | LexLS => [(MObj, 0, n); (MObj, 0, S n)]
  end.
(* Lower and upper bounds of coordinate [j] of x (Quadprog: the segments of b_ following the
   nCstr constraint rows, if bounds are used at all). *)
Definition bndKeys (k : kind) (st : state) (j : nat) : list cellkey :=
  let n := totalSize (st_vars st) in
  match k with
  | QLD _ => [(V2, j, 0); (V3, j, 0)]
  | Quadprog _ => if s_ub (st_store st)
                  then [(V1, st_nEq st + st_nIneq st + j, 0); (V1, st_nEq st + st_nIneq st + n + j, 0)]
                  else []
  | LSSOL => [(V1, j, 0); (V2, j, 0)]
  | LexLS => [(V1, j, 0); (V1, j, 1)]
  end.

Record problem := mkP {
  p_eq : list row;            (* equality rows (QLD, Quadprog); all rows (LSSOL, LexLS) *)
  p_ineq : list row;          (* inequality rows (QLD, Quadprog) *)
  p_obj : option (list row);  (* rows of the objective; None: minimum norm *)
  p_bnd : list (list (list content)) }.   (* per coordinate of x: what is written in l and u *)

Definition handed (k : kind) (st : state) : res problem :=
  do l <- runAssignments st;
  let n := totalSize (st_vars st) in
  let rd := readRow l n MCstr (rhsKeys k n) in
  Ok (mkP (map rd (match k with
                   | QLD _ | Quadprog _ => seq 0 (st_nEq st)
                   | LSSOL | LexLS => seq 0 (st_nEq st + st_nIneq st) end))
          (map rd (match k with
                   | QLD _ | Quadprog _ => seq (st_nEq st) (st_nIneq st)
                   | LSSOL | LexLS => [] end))
          (if st_minNorm st then None
           else Some (map (readRow l n MObj (objKeys k n)) (seq 0 (st_nObj st))))
          (map (fun j => map (cell l) (bndKeys k st j)) (seq 0 n))).

(* A solver as constructed *)
Definition emptyObj := mkObj 0 0 0.
Definition init (k : kind) : state :=
  mkSt [] 0 0 0 0 0 0 false false [] [] [] []
       (mkStore 0 0 0 0 false emptyObj (mkObj 0 0 1) emptyObj
                (match k with LexLS => emptyObj | _ => mkObj 0 0 1 end) (mkObj 0 0 1) (mkObj 0 0 1)).
