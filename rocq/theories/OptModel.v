(* Model of the options of the solvers: the classes of options made with the macros of include/tvm/solver/internal/Option.h, the
   constructors of the solvers, that read them, and the factories.  The libraries behind the solvers are not in the repository: the
   parameters of each of their objects are a function from names to values, whose initial values are those of the library.  The
   types of the options are not modelled (a setter only compiles for a value of the type of the option, and for a declared one). *)
From Coq Require Import List Bool ZArith QArith String.
Import ListNotations.
From Verif Require Import Base.
Local Open Scope string_scope.
Local Open Scope list_scope.

(* BigNumber is constant::big_number (include/tvm/defs.h:94) *)
Inductive val := VB (b : bool) | VZ (z : Z) | VD (q : Q) | VS (s : string) | BigNumber.
(* An object of a class of options: its members std::optional<type>, by name (Option.h:21-34) *)
Definition opts := list (string * option val).
(* The getter, Option.h:11 *)
Fixpoint getOpt (n : string) (o : opts) : option val :=
  match o with [] => None | (m, v) :: o => if m =? n then v else getOpt n o end.
(* The setter, Option.h:12-16 *)
Fixpoint setOpt (n : string) (v : val) (o : opts) : opts :=
  match o with [] => [] | (m, w) :: o => if m =? n then (m, Some v) :: o else (m, w) :: setOpt n v o end.
(* a chain of calls of setters *)
Definition setAll (l : list (string * val)) (o : opts) : opts := fold_left (fun o p => setOpt (fst p) (snd p) o) l o.

Inductive kind := LSSOL | QLD | Quadprog | LexLS | LexLSH.
(* include/tvm/solver/LexLSSolverOptions.h:17-82 *)
Definition lexOptions : opts :=
  [("max_number_of_factorizations", None); ("tol_linear_dependence", None); ("tol_wrong_sign_lambda", None);
   ("tol_correct_sign_lambda", None); ("tol_feasibility", None); ("regularization_type", None);
   ("max_number_of_CG_iterations", None); ("variable_regularization_factor", None); ("cycling_handling_enabled", Some (VB true));
   ("cycling_max_counter", None); ("cycling_relax_step", None); ("output_file_name", None); ("modify_x_guess_enabled", None);
   ("modify_type_active_enabled", None); ("modify_type_inactive_enabled", None); ("set_min_init_ctr_violation", None);
   ("use_phase1_v0", None); ("log_working_set_enabled", None); ("deactivate_first_wrong_sign", None)].
(* A new object: include/tvm/solver/LSSOLLeastSquareSolver.h:18-35, QLDLeastSquareSolver.h:21-25, QuadprogLeastSquareSolver.h:21-25,
   LexLSLeastSquareSolver.h:15-23 and LexLSHierarchicalLeastSquareSolver.h:15-27 *)
Definition declared (k : kind) : opts :=
  match k with
  | LSSOL => [("big_number", Some BigNumber); ("crashTol", None); ("feasibilityMaxIter", None); ("feasibilityTol", Some (VD (1 # 1000000)));
              ("infiniteBnd", None); ("infiniteStep", None); ("optimalityMaxIter", None); ("persistence", None); ("printLevel", None);
              ("rankTol", None); ("verbose", Some (VB false)); ("warm", Some (VB true))]
  | QLD => [("big_number", Some BigNumber); ("cholesky", Some (VB false)); ("choleskyDamping", Some (VD (1 # 100000000)));
            ("eps", Some (VD (1 # 1000000))); ("verbose", Some (VB false))]
  | Quadprog => [("big_number", Some BigNumber); ("cholesky", Some (VB false)); ("choleskyDamping", Some (VD (1 # 1000000)));
                 ("damping", Some (VD (1 # 1000000000000))); ("verbose", Some (VB false))]
  | LexLS => lexOptions ++ [("big_number", Some BigNumber); ("verbose", Some (VB false)); ("warmStart", Some (VB false))]
  | LexLSH => lexOptions ++ [("big_number", Some BigNumber); ("verbose", Some (VB false)); ("warmStart", Some (VB false));
                             ("feasibleFirstLevel", Some (VB false))]
  end.

(* The parameters of an object of a library *)
Definition params := string -> val.
Definition setP (p : params) (n : string) (v : val) : params := fun m => if m =? n then v else p m.
(* A solver: the members it initializes from the options, and the parameters of its objects of the library *)
Record lsolver := mkLs { ls_fields : list (string * val); ls_libs : list params }.

(* options.x().value(), that throws if the optional is empty, for several options *)
Fixpoint values (l : list string) (o : opts) : res (list (string * val)) :=
  match l with
  | [] => Ok []
  | n :: l => match getOpt n o with Some v => do r <- values l o; Ok ((n, v) :: r) | None => Throw end
  end.
(* The initializer lists: LSSOLLeastSquareSolver.cpp:15-16, QLDLeastSquareSolver.cpp:15-17, QuadprogLeastSquareSolver.cpp:15-18,
   LexLSLeastSquareSolver.cpp:16-19 and LexLSHierarchicalLeastSquareSolver.cpp:16-19 *)
Definition initialized (k : kind) : list string :=
  match k with
  | LSSOL => ["verbose"; "big_number"]
  | QLD => ["verbose"; "big_number"; "eps"; "cholesky"; "choleskyDamping"]
  | Quadprog => ["verbose"; "big_number"; "damping"; "cholesky"; "choleskyDamping"]
  | LexLS => ["verbose"; "warmStart"; "big_number"]
  | LexLSH => ["verbose"; "warmStart"; "big_number"; "feasibleFirstLevel"]
  end.
(* TVM_PROCESS_OPTION and TVM_PROCESS_OPTION_PUBLIC_ACCESS, Option.h:39-55 *)
Definition process (o : opts) (p : params) (n : string) : params := match getOpt n o with Some v => setP p n v | None => p end.
(* LSSOLLeastSquareSolver.cpp:18-27, the same for both objects (28-37); LexLSLeastSquareSolver.cpp:22-41, the same in
   LexLSHierarchicalLeastSquareSolver.cpp:22-41 *)
Definition processed (k : kind) : list string :=
  match k with
  | LSSOL => ["crashTol"; "feasibilityMaxIter"; "feasibilityTol"; "infiniteBnd"; "infiniteStep"; "optimalityMaxIter"; "persistence";
              "printLevel"; "rankTol"; "warm"]
  | QLD | Quadprog => []
  | LexLS | LexLSH =>
      ["max_number_of_factorizations"; "max_number_of_factorizations"; "tol_linear_dependence"; "tol_wrong_sign_lambda";
       "tol_correct_sign_lambda"; "tol_feasibility"; "regularization_type"; "max_number_of_CG_iterations";
       "variable_regularization_factor"; "cycling_handling_enabled"; "cycling_max_counter"; "cycling_relax_step"; "output_file_name";
       "modify_x_guess_enabled"; "modify_type_active_enabled"; "modify_type_inactive_enabled"; "set_min_init_ctr_violation";
       "use_phase1_v0"; "log_working_set_enabled"; "deactivate_first_wrong_sign"]
  end.
Definition times4 (v : val) : val := match v with VZ z => VZ (4 * z) | v => v end.
(* LSSOLLeastSquareSolver.cpp:38-54 for one of the two objects.  Overflows are not modelled. *)
Definition lssolDefaults (o : opts) (p : params) : params :=
  let p := setP p "forceMinSize" (VB false) in
  let p := match getOpt "persistence" o with None => setP p "persistence" (VB true) | Some _ => p end in
  let p := match getOpt "feasibilityMaxIter" o with None => setP p "feasibilityMaxIter" (times4 (p "feasibilityMaxIter")) | Some _ => p end in
  match getOpt "optimalityMaxIter" o with None => setP p "optimalityMaxIter" (times4 (p "optimalityMaxIter")) | Some _ => p end.
(* The constructors, lines 14-55 (LSSOL), 14-18 (QLD), 14-19 (Quadprog) and 15-44 (LexLS, both).  libs: the parameters of the objects
   of the library when created: ls_ and fp_ for LSSOL, param for LexLS *)
Definition construct (k : kind) (libs : list params) (o : opts) : res lsolver :=
  do f <- values (initialized k) o;
  Ok (mkLs f (map (fun p => let p := fold_left (process o) (processed k) p in match k with LSSOL => lssolDefaults o p | _ => p end) libs)).

(* An object of options of the user, and the copy of it in the factory of a scheme (constructors of the factories, for instance
   LSSOLLeastSquareSolver.cpp:223-225; clone, 227-228; WeightedLeastSquares.h:72-88) *)
Record world := mkW { w_opts : opts; w_factory : option opts }.
Inductive wop := WSet (n : string) (v : val) | WScheme.
Definition wstep (w : world) (a : wop) : world :=
  match a with WSet n v => mkW (setOpt n v (w_opts w)) (w_factory w) | WScheme => mkW (w_opts w) (Some (w_opts w)) end.
Definition wrun (k : kind) (l : list wop) : world := fold_left wstep l (mkW (declared k) None).
(* createSolver of the factory, called at each build (WeightedLeastSquares.cpp:101, 109; HierarchicalLeastSquares.cpp:95, 103) *)
Definition createSolver (k : kind) (libs : list params) (w : world) : option (res lsolver) := option_map (construct k libs) (w_factory w).

(* DefaultLSSolverOptions, include/tvm/solver/defaultLeastSquareSolver.h:20-27 *)
Definition defaultOptions : opts := [("big_number", Some BigNumber); ("verbose", Some (VB false))].
(* DefaultLSSolverFactory::createSolver, src/solver/defaultLeastSquareSolver.cpp:16-33, according to the macros TVM_USE_*; with none
   of them it does not compile (None).  operator* on an empty optional is undefined. *)
Definition createDefault (lssol qld quadprog : bool) (libs : list params) (o : opts) : option (kind * res lsolver) :=
  let make k := Some (k, match getOpt "big_number" o, getOpt "verbose" o with
                         | Some b, Some v => construct k libs (setOpt "verbose" v (setOpt "big_number" b (declared k)))
                         | _, _ => UB end) in
  if lssol then make LSSOL else if qld then make QLD else if quadprog then make Quadprog else None.
