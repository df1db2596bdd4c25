# Formal model of tvm: design

`/repo` is read as text only. The model is written in Gallina (Coq 8.16.1) in
`rocq/theories`, one group of files per code unit:

* `<Unit>Model.v`  executable definitions, each citing file and lines in `/repo`;
* `<Unit>Spec.v`   (when needed) the small specification the statements use;
* `<Unit>Proofs*.v` lemmas;
* `<Unit>Props.v`  the property theorems (`exact lemma.`), a concrete
  non-vacuity `Example` beside them, and `Print Assumptions`.

`properties.jsonl` has the properties, `MANIFEST.json` the theorems claimed for
each, `seeded/LOG.jsonl` the wrong programs the theorems were tested against.

## Conventions

* `int`/`size_t` are `Z`/`nat`: overflow is outside the model, except where a
  property is about it (C44).
* `double` is an exact number: `Q`, an element of any ordered field (mathcomp
  `realFieldType`, C19-C21), or Coq's `R` where square roots or angles enter (C39, C56).
  Rounding, NaN and infinities are outside the model; a division by zero is a
  distinguished outcome or excluded by a hypothesis.
* Pointers are identifiers in an explicit heap when aliasing or lifetime matters.
* Exceptions are the `Throw` outcome. Undefined behaviour (dereferencing
  `end()`, out-of-range access, null dereference, use after free) and violated
  `assert`s are the separate `UB` outcome, so that a theorem concluding `Ok` or
  `Throw` excludes them. Units where asserts are taken as not compiled say so.
  When the state left by an exception matters, the outcome of a call is
  `Done s | Threw s | Undef`.
* A statement that is false of the code gets a theorem `..._refuted` with a
  concrete witness; the strongest true part is proved, under the suffix
  `..._partial` when the theorem has the form of the property with more
  hypotheses. In `MANIFEST.json` a property is "partial" when its own statement
  is false or only proved with restrictions, and "proved" when the refuted
  claims are side claims (of the documentation, or outside of its statement).

## Trusted base

* Coq's kernel (8.16.1; `vm_compute` is used in some proofs).
* The fidelity of the model definitions to the C++ lines they cite. Nothing is
  extracted from or run against the C++ code.
* The axioms `Print Assumptions` lists, given for each theorem at the end of
  this file. Only the theorems about real numbers (C39, C56 and later ones marked
  there) have any: four axioms of the standard library, used by its real numbers
  and trigonometric functions.
* No axiom, parameter or admitted proof is added; no kernel check is switched
  off; there are no functors, module types or plugins of our own.
* Tools that list all constants without a body in the loaded libraries (such as
  `coqchk -o`) also name abstract constants of sealed modules of mathcomp
  (`FinfunDef.finfunE`, `Imset.imset2`, ...), of Coq's ssreflect (`Under_rel`)
  and of Coq's reals (`RbaseSymbolsImpl`). Each has a definition in its module,
  which the signature hides; they are no assumptions, and `Print Assumptions`
  does not list them. Only the `MatProp*` files (C19-C21) load mathcomp.

## Scope: what is modelled

| unit | code | left out |
|------|------|----------|
| Range, RangeCounting | `Range.h`, `RangeCounting.{h,cpp}` entirely | overflow |
| Space | `Space.{h,cpp}` entirely | |
| Variable | `Variable.{h,cpp}`: creation, dot, primitives, sub-variables, values, ranges, comparisons | destruction; names except the automatic label |
| VarVector | `VariableVector.{h,cpp}` and the cache `startIn_` | values of the vector, overflow of the stamp |
| VarCounting, Partition | `VariableCountingVector`, `VariableVectorPartition` | |
| Graph, DisjointSet, Order, Tarjan | `DependencyGraph`, `DisjointSet` | |
| CallGraph | `CallGraph.{h,cpp}`, dependency maps of `AbstractNode.h` | logging, what an update computes |
| MatProp | `MatrixProperties.{h,cpp}` | |
| Assign, Bound | `Assignment.{h,hpp,cpp}`, `CompiledAssignment.h`, `AssignmentTarget.cpp`, `helpers.cpp` (bounds) | the wrapper functions, sub-variables in assignments, aliasing between targets |
| Solver | `LeastSquareSolver.{h,cpp}` and the layout of the QLD, Quadprog, LSSOL and LexLS versions | the solvers themselves |
| Qp | `LeastSquareSolver.cpp` and the QLD, Quadprog, LSSOL and LexLS versions: the data from `startBuild` to the call of the numerical solver | incremental changes (Solver), QR decomposition and triangular inverse (Eigen's, parameters), warm start |
| Hls | `HierarchicalLeastSquareSolver` with its LexLS version, `HierarchicalLeastSquares.cpp:92-214` | options, warm start |
| Queue, SolverEvents, Wls, Pb | `ProblemComputationData.h`, `SolverEvents.h`, `WeightedLeastSquares.cpp`, `ControlProblem.cpp`, `LinearizedControlProblem.cpp` | exceptions of the numerical solver |
| Abilities | `SchemeAbilities.{h,cpp}` | the warning |
| Diag, Subst | `DiagonalCalculator`, `SubstitutionCalculatorImpl`, `SubstitutionUnit` | `GenericCalculator` (its decomposition is Eigen's: C33 takes its contract) |
| SubSet | `Substitutions.{h,cpp}`, the constructor of `Substitution`, grouping and extraction in `SubstitutionUnit.cpp` | sub-variables; exceptions of a calculator during an update |
| Blc | `BasicLinearConstraint.{h,cpp}`, `Constraint.cpp`, `RHSVectors.cpp`, `LinearConstraint.cpp` (values) | update graph; negative sizes |
| Cone | `FrictionCone.{h,cpp}`, Eigen's `AngleAxis::toRotationMatrix`; doubles are reals | |
| Df | `DynamicFunction.{h,cpp}`, `LinearFunction::updateValue_`; doubles are reals, robots and frames are names | RBDyn (a configuration gives H, C and point Jacobians), the splitting of the columns of H, the computation graph |
| Ctc | `Contact.{h,cpp}`, product and inverse of `sva::PTransform`; doubles are reals, strings any totally ordered type | forwarding of the signals of the frames |
| Fr | `Frame.cpp`, `PositionFunction.cpp`, `GeometricContactFunction.cpp`, product of `sva::PTransform` with motion vectors; doubles are reals | RBDyn (gives the pose, velocity, normal acceleration and Jacobian columns of the body), `sva::transformError` (any function), the splitting of the columns of the Jacobian |
| Pl | `Plane.cpp`, `CoMInConvexFunction.cpp`, `CoMFunction.cpp`; doubles are reals | RBDyn (gives the centre of mass, its velocity, normal acceleration and Jacobians), the splitting of the columns of the Jacobian |
| Col | `CollisionFunction.cpp`; doubles are reals | sch-core (gives the signed squared distance and the closest points), RBDyn (velocities, Jacobians and accelerations of points of bodies), the splitting of the columns of the Jacobian, the variables and the dependencies |
| Fop | `FirstOrderProvider.cpp`, `Function.cpp`, `linearIn`, the assignments of `MatrixWithProperties.h` | the numbers in value, velocity and normal acceleration (only sizes); access to the Jacobian by sub-variable (C43) |
| Rob | `Robot.cpp`: bounds, initial values, `updateTimeDependency`, dependencies, `computeNormalAccB` | RBDyn (multi-body, integration, kinematics, dynamics: only the sizes); mass, centre of mass, H, C; `bodyTransforms_` |
| Gc | `GenericCalculator.cpp`, `update` and the products of `SubstitutionCalculatorImpl.cpp` | the decomposition of Eigen (its contract is the hypothesis `decomposes`, exact arithmetic); the sizes of the arguments of the products; `BufferedMatrix` |
| Sc | `Substitution`, the constructor and `fillA` of `SubstitutionCalculatorImpl`, `AutoCalculator`, with sub-variables | constraints overriding `jacobian`; non-Euclidean variables |
| Wr | the operators of `ProtoTask.h`, `RHS`, `IdentityFunction`, addition with the dynamics `None`, right-hand sides of the constraint | infinite right-hand sides; other dynamics (Ltc, Dyn); requirements |
| Cf | `checkFunction.{h,cpp}`; doubles are reals, any sequence of random vectors | rounding; the messages; `UpdatelessFunction` (C51) |
| Nd | `graph/abstract/Node.hpp` (all declarations), `AbstractNode.h` (data, update), calls to the Logger from `Node.hpp` and `Inputs.hpp` | static_assert checks of types; names; destruction of nodes; removal of inputs (C45) |
| Lg | `graph/internal/Log.h` (data), `Logger.h`, `Logger.cpp` (what is recorded), `Log.cpp` (subGraph, followUpDependency, find functions) | names, types and promoted types; dot output (`generateDot`); destruction and reuse of addresses; removal of inputs |
| Gp | `diagnostic/GraphProbe.cpp` (addOutputVal, outputVal, listOutputVal, followUp) | registration of accessors (typed), conversion of values, messages and printing; accessors that throw |
| Rq | `include/tvm/requirements/*.h`, `abstract/SingleSolvingRequirement.h`, `src/ControlProblem.cpp:8-10,73-86` on top of Pb | copies of callbacks between requirements with callbacks (not compilable); NaN weights |
| Bs | `src/hint/Substitutions.cpp:157-188`, `src/scheme/helpers.cpp:18-156`, `src/scheme/WeightedLeastSquares.cpp:129-168,186-216` for variables and columns, `src/scheme/Assignment.cpp:545-598` for parts and columns, `VariableVector::{add,indexOf,getMappingOf}` | variables of size 0; the exceptions for inequalities at positive levels and for abilities (C31); the values written (C22, C33) |
| Caw | `include/tvm/scheme/internal/CompiledAssignmentWrapper.h:28-217` with an explicit heap, `CompiledAssignment::{from,to}` (`CompiledAssignment.h:543-567,653-658,669-765`) | what run() computes (C22); the caches of the assignments; the lifetime of the matrices referred to |
| Mal | `src/utils/memoryChecks.cpp:10-46`, `include/tvm/utils/memoryChecks.h:12-88`, `include/tvm/scheme/abstract/ResolutionScheme.h:70-101`, `include/tvm/scheme/internal/helpers.hpp:13-29`, `ControlProblem::{update,finalize,needFinalize}` as stages | the coherency check between executable and library (`memoryChecks.h:25-44`); what the stages compute (other units), seen here as codes that allocate, override, restore and throw |
| Dot | `src/graph/Log.cpp:21-57, 118-128, 159-236, 310-606, 679-698`, `include/tvm/graph/internal/Logger.h:83-172` | the punctuation of the dot language, default shapes, ranks and the labels of the drawing of one object; demangling (a function); the constructors of Pointer and EnumValue |
| Mi | `include/tvm/diagnostic/matrix.h` | row-major types (rejected when compiled); pointer differences between allocations as differences of addresses |
| Ori | `src/robot/OrientationFunction.cpp`, `include/tvm/robot/OrientationFunction.h`, on the frames of Fr | sva::rotationVelocity (any function that gives rotation vectors; one is constructed), RBDyn (oracle as in Fr), rounding |
| Gu | `include/tvm/utils/graph.h`, `include/tvm/utils/internal/graphDetails.h`, on the models of Inputs and CallGraph | the types of the objects and outputs (checked at compile time); the updates are any functions of the results they depend on |
| Ch | `src/robot/ConvexHull.cpp`, `tvm::utils::transform` of `src/utils/sch.cpp` | sch-core (an object is its transformation, used on points by its first three rows), the loading of files, the positions of the frames (any; see Fr), rounding |
| Rd | `src/task_dynamics/Reference.cpp` | the computation graph of the dynamics (all is up to date; see CallGraph, Gu), rounding |
| Bm | `include/tvm/utils/internal/BufferedMatrix.h` | alignment, overflow of sizes, the reference returned by `operator=` (to a temporary), Eigen (a resize to another size allocates without initialization; maps are stored by columns and check indexes) |
| Bg | `src/scheme/ResolutionScheme.cpp`, `Assignment::big_` and its uses | the rest of the assignments (see Assign, Bound), the numbers of the solvers (see Qp), which tasks become constraints or bounds (see Wls, Hls), removals of tasks |
| Uf | `src/robot/utils.cpp` `fromURDF`, over the robots of Rob | the parser of RBDyn (a file is the robot and the configuration read from it), the gravity, the limits (see Rob), the filtered links, files that can be opened but not parsed |
| Hp | `HierarchicalLeastSquares::updateComputationData_`, `createComputationData_`, `resetComputationData`, `solve_`, `addTask`, `removeTask`, `ResolutionScheme::solve`, `HierarchicalLeastSquareSolver::process`, over the problems of Pb and the queues of Queue | the matrices (see Hls), the abilities (see Abilities), exceptions of `finalize`, the values of the variables after a resolution |
| Lx | `LexLSLeastSquareSolver`: constructor, `resize_`, `postAssignmentProcess_`, `solve_`; `LeastSquareSolver::solve`, `ImpactFromChanges::willReallocate` | the contents of the matrices (see Qp), the LexLS library (its answers are any), `LexLSHierarchicalLeastSquareSolver` (see Hls) |
| Opt | the macros of `Option.h`, the classes of options of the five solvers and of the default one, the constructors of the solvers as far as they read options, the factories | the types of the options, the libraries (their parameters are any), the overflow of the iteration limits of LSSOL, what the options do (see Qp, Lx, Hls) |
| Slc | `ObjectWithProperties`, `KeepProperties`, `slice_matrix`, `BasicLinearFunction::add` for a variable already there | expressions which read the matrix they are assigned to, the copy of an object with properties, the constness of a matrix under the operations (it is modelled for constant slices) |
| Ws | the warm start in `LexLSHierarchicalLeastSquareSolver`: `resize_` (for `act_` and `x0_`), `postAssignmentProcess_`, `solve_`, on top of Hls | the library (its answers are any), exceptions of an assignment, the display |
| Token, Callback | `PairElementToken.h`, `CallbackManager.h` | callbacks that register or run the same manager |
| Dyn, PD | `Clamped.h`, `OneStepToZero.cpp`, `VelocityDamper.cpp`, `Proportional.cpp`, `ProportionalDerivative.{h,cpp}`, `FeedForward.h` | rounding; Schur decomposition is a parameter |
| Ltc | `Task.cpp`, `None.cpp`, `Constant.cpp`, `LinearizedTaskConstraint.cpp`, `LinearConstraint.cpp`, `RHSVectors.cpp` | the call graph |
| LinFun | `BasicLinearFunction`, `LinearFunction.cpp`, `AffineExpr*.h` | lifetime of the references kept by expressions |
| MapVar | `MapWithVariableAsKey.h` with its uses in `FirstOrderProvider.h` and `Function.h` | matrix properties of the slices |
| Id | `IdProvider.h`, `ObjWithId.h`, `map.h`, `Clock.cpp` | |
| Inputs, OutSel | `Inputs.{h,hpp,cpp}`, `OutputSelector.h`, `Outputs.h`, `enums.h` | the logger |
| Event | `event::Source`, `event::Listener` | |
| Joints, Posture | `JointsSelector.cpp`, `PostureFunction.cpp` | RBDyn |
| Updateless | `UpdatelessFunction.{h,cpp}` | the parts of a Jacobian |

Not modelled at all: Eigen's numerics, the QP solvers, RBDyn and sch robot
kinematics, the geometric functions and contacts, the graph log and its file
output, `std::function` internals, timing and memory allocation checks,
printing.

## Plan per property

| id | modelled code | how proved |
|----|---------------|-----------|
| C01-C05 | `RangeCounting` (limit list with iterator zipper, flags) | invariant over op histories, refinement to a multiplicity function `Z -> Z`, uniqueness of canonical interval lists |
| C06 | `Range` | arithmetic |
| C07 | `Variable` as (base, derivation, shift, space), memory as a map | algebra on slices, invariant of the heap; refutation of the auto-name |
| C08 | `Space` | arithmetic |
| C09, C10 | `VariableVector` + `Variable::startIn_` in a heap of vectors and variables | invariant over histories of all operations on all vectors |
| C11 | `VariableCountingVector` on top of `RangeCounting` | refinement; refutation for the split mode |
| C12 | `VariableVectorPartition` iterator | state machine invariant; refutation on empty container |
| C13-C17 | `DependencyGraph` with `DisjointSet` and Tarjan | graph theory over arbitrary finite graphs; refutation for a root plus a separate cycle |
| C18 | `CallGraph` | plan is a topological order of the reachable updates |
| C19-C21 | `MatrixProperties` | semantics of properties over mathcomp matrices of any size; refutations for the unsound or throwing cases |
| C22-C25 | `Assignment`, `AssignmentTarget`, compiled assignments | rows as linear forms; equivalence of feasible sets for each combination; induction on runs and weight updates |
| C26, C27 | `LeastSquareSolver::process` and the concrete `resize_` | invariant on ranges; rebuild equivalence; refutations |
| C28 | `ProblemComputationData` event queue | induction on histories |
| C29 | `SolverEvents` | induction on histories |
| C30 | `WeightedLeastSquares` memory | refinement over histories; refutations with exceptions |
| C31 | `SchemeAbilities::check` | case analysis; refutation for priority >= 2 |
| C32, C33 | calculators, `SubstitutionUnit` | linear algebra over Q with functions as matrices, induction on the group |
| C34, C35 | `PairElementToken`, `CallbackManager` | heap invariants; refinement of the vector of callbacks to a list of live registrations |
| C36-C40 | task dynamics | ordered-field arithmetic, induction on time steps |
| C41 | `LinearizedTaskConstraint`, `Task` | unfolding to row semantics over the heap of variables |
| C42 | `BasicLinearFunction`, `AffineExpr` | induction on expressions |
| C43 | `MapWithVariableAsKey`, `FirstOrderProvider` | slices |
| C44 | `IdProvider`, `Clock` | invariant over all interleavings of threads |
| C45 | `Inputs` | induction on histories |
| C46 | `OutputSelector` | induction on constructions and calls |
| C47 | `event::Source` | induction on nested deliveries; refutation (expired listener is dereferenced) |
| C48 | `HierarchicalLeastSquareSolver::startBuild` | invariant of a build; refutation for a second build |
| C49 | `JointsSelector` | interval merging equals union of columns |
| C50 | `PostureFunction` | layout invariant, refutation |
| C51 | `UpdatelessFunction` | parsing of arguments against a memory |
| C52 | `ControlProblem`, `LinearizedControlProblem` | histories with failures |
| C53 | the four least-square solvers | invariant over histories of builds and solves; equality of feasible sets and costs of the data handed with those of the user's problem |
| C54 | `Substitutions` | invariant of the dependency graph over histories; composition of C15 (reduction), C14 (groups) and C33 (one group) |
| C55 | `BasicLinearConstraint` | constructors against documented preconditions; last-call-wins invariant over histories with refused calls |
| C56 | `FrictionCone` | real geometry: closed form of the generators, convexity, roots of unity for the precision |
| C57 | `DynamicFunction` | invariant over call sequences relating variables, Jacobians and contacts to the list of sides added; friction by C56 |
| C58 | `Contact`, `Contact::Id` | algebra of rigid transformations against the physical position of points; case analysis of the comparison |
| C59 | `Frame`, `PositionFunction`, `GeometricContactFunction` | derivatives along rigid motions; exact conditions for the velocity and the Jacobian |
| C60 | `Plane`, `CoMInConvexFunction`, `CoMFunction` | histories of calls; derivatives along motions of planes given by a point |
| C61 | `CollisionFunction` | histories of calls; invariant tying the rows to the pairs added; derivative of the distance along motions |
| C62 | `FirstOrderProvider`, `Function` | invariant over histories of calls of the derived class |
| C63 | `Robot` | blocks of coordinates are disjoint; induction on histories; induction on the joints of the tree |
| C64 | `GenericCalculator` | backward substitution and uniqueness of triangular systems; dimension of the null space; instance of the contract of C33 |
| C65 | construction of a substitution, choice of its calculator | blocks filled by induction on constraints and variables; sums over disjoint sub-ranges; composition with C32 and C64 |
| C66 | written relations, from the operators to the right-hand sides of the constraint | shape of the protos by cases on the relation; composition with C42 |
| C67 | the checks of functions | loops as invariants; finite differences against derivatives (mean value, limits for small steps) |
| C68 | declarations of a node as calls with caught exceptions, with the events sent to the logger; execution of the plan of C18 | invariant over histories: every history amounts to one of returning calls; maps and events equal what these declare; two claims refuted |
| C69 | the log as lists of entries, the walk with its two stacks and marks, the logger with enable/disable | termination measure on unmarked items and stacks; invariant: marked items have their successors marked or stacked; path equivalence with `needed` of C18; three claims refuted |
| C70 | the recursion with its marks building trees; accessors as partial functions of type and output | depth measure on unmarked items; invariant on forests relative to the marks before and after (every new mark is expanded once in the forest, everything shown and open is marked); three side claims refuted |
| C71 | requirements as a function from the four kinds to (value, default flag); construction as a fold over arguments with the static assertion as a refusal; histories of changes interleaved with the calls of C52 | induction on the arguments (permutations) and on histories with an invariant relating requirements, callbacks and event queues |
| C72 | variables as intervals of elements; counting vectors as sets of elements with their maximal runs (justified by C11); substitute, bounds, collection, partition of the variables of a constraint, look up of columns | induction on scans of the elements for runs and parts, on the constraints for the collection; independent specification by elements (`needed`, `rewritten`) |
| C73 | wrappers with their function pointers as type tags, heap of typed cells, undefined behaviour for null calls, wrong casts, accesses to deleted cells | simulation of a heap-free semantics of values (`CawSpec.v`) by induction on the program; invariant: owner of each living cell unique and of its type |
| C74 | flag and stack; codes as trees of allocations, exceptions and overridden blocks; resolutions as stages over a log of events | induction on codes for the exact number of overrides left open; invariant of the log and of the data; induction on mirrored programs |
| C75 | the log of C69 with the map of types; drawings as lists of statements; sets sorted lexicographically as std::set | sorted insertion; exact characterisation of when a drawing returns and what it shows; colours by the walk of C69; injectivity of names by spans of digits |
| C76 | addresses as integers, a matrix as data, sizes and strides; `%` undefined for 0 | Euclidean division; uniqueness of the place of an address when columns do not overlap |
| C77 | the calls on a state with the target and the value; orientations as orthonormal right-handed axes | Euler's theorem by cases on the trace; equivariance of Rodrigues' formula; derivative of the vector through acos and the antisymmetric part, at the target by a limit |
| C78 | the recursion over the arguments with one Inputs per object, then CallGraph::update; execute() as a fold over the plan | induction on the arguments with the invariant of C18; the plan, being ordered, leaves a fixed point of the updates, unique by induction on the positions |
| C79 | the calls on a state with the frames, the hulls and the transformations of the objects | invariant over the histories: the transformation of an object is the one of its last placement; orthonormality gives the distances |
| C80 | the constructors and the implementation as a task dynamics of Ltc | from C41 for the constraint; induction over the instants for the sum |
| C81 | the calls on a state with the buffer, its allocation number and the size | simulation of a matrix with unknown coefficients; doubling argument over the histories |
| C82 | the calls on a state with the shared number, the schemes and the constraints of each problem with the number they hold | invariant over the histories tracing each constraint to the call that assigned it |
| C83 | the loop over the map on the list of the configurations of the joints, and the construction of the robot (Rob) | induction on the map, with the shape of the configurations as invariant |
| C84 | a problem of Pb with the weights of its tasks and, for each scheme, what it built; the calls with the exceptions they throw and the events these leave | invariant over histories relating what was built, the pending events and the problem; induction on the pending events for the calls after an exception |
| C85 | the dimensions of the matrices, what the library was set up for, the active sets and starting point kept; the library gives any answer | invariant over all sequences of calls: products of dimensions determine them because the number of variables is checked separately |
| C86 | options as lists of optional values by name; the parameters of a library as a function of the name | induction on the calls of setters and on the list of options processed; each declared option checked against the options processed |
| C87 | matrix as sizes and entries, with the properties of MatProp; an operation acts on the whole or on a range of columns | exact effect of each operation by cases; induction on the operations for the truth of the properties; the meaning of the properties is that of C19 |
| C88 | the solver of Hls with the active constraints and the starting point; the answers of the library are arguments of the calls | induction on the calls since the last build; relation between two runs with other answers; invariant: the active constraints exist in the configuration of the library |

## Findings

Statements that are false of the code as modelled, each with a proved witness.

* **C02** the header says `ranges(true)` changes at each addition: adding the
  same range again does not. **C06** `intersects` holds for an empty range inside
  another, and an empty range is not in itself.
* **C07** creating a sub-variable of a derivative sets the values of the slice
  to zero; the automatic name of a nested sub-variable is relative to its
  parent. **C08** a product with the empty space changes the type of SO3;
  `Space(Type::Euclidean)` has size -1.
* **C09** self-assignment empties a `VariableVector`; zero-size variables are
  duplicated. **C10** a moved-from vector keeps its size, and all of them share
  the id -1: reusing one gives wrong mappings.
* **C11** split pieces after a cached call, and `simple()`, are not as
  documented. **C12** an empty container is dereferenced.
* **C13, C18** a cycle no root leads to is silently dropped when there is
  another root; circular output forwarding makes `CallGraph::add` recurse for
  ever.
* **C19** `2*I` is declared `IDENTITY`. **C20** `I+I`, `I+0`, `PD+PSD` and the
  product of a constant zero by a varying matrix throw.
* **C22** a single-sided constraint in an `OPPOSITE` double-sided target gets
  the wrong sign. **C23** when only the scalar weight changes under an
  anisotropic one, the rows keep the old value. **C24** bounds with l > u under a diagonal matrix, values beyond
  `|d|*big`, and single-sided bound targets.
* **C26, C27** objectives added after a minimum-norm build; a matrix resized
  to another shape with the same number of coefficients; diagonal bounds.
* **C28** a substitution event is lost if a task has the address of the
  substitution; a task added twice then removed violates an assert. **C29** an
  objective removed and added again keeps its old requirements.
* **C30** after a solve that threw, a change of priority, an assignment of a
  weight, or a change in the nature of a bound, the scheme and the problem
  differ; a build that throws leaves an empty solver that the next call uses. A
  change of substitution is the way out (`C30_resync`). **C31** the weighted scheme throws `std::out_of_range` for every
  priority >= 2.
* **C32** a column position is used as a row index when a row before a zero row
  is not selected. **C33** `cIsZero_`/`uIsZero_` are accessed out of range (two
  constraints on one variable; dependency on a variable whose index is not below
  the number of substitutions), and the ZERO flag may be wrong.
* **C34** self-move unpairs; a token can be paired with itself; a handle used
  after its token was paired or moved breaks the relation. **C35** a handle kept
  across another registration dangles; a callback unregistering itself is
  destroyed while it runs.
* **C37** the damper lets the function jump across its zone in one step, and
  does not hold for exact integration of the acceleration. **C38** automatic
  damping may be negative, or a division by zero. **C39** with a matrix
  stiffness the damping is `2*kp`; the setter does not set `kp`; constructors
  accept ill-sized matrices.
* **C41** `Constant` ignores the constant part of a function; of two variables
  with overlapping derivatives one is dropped. **C43** `JDot` uses the ranges of
  the values instead of those of the tangent space; sub-variables not aligned
  with it are out of range or get the whole matrix.
* **C44** overflow at the 2^31st id; moved-from objects share -1; self-move
  loses the id; comparison with null is no strict weak order; a follower
  integrates once for several ticks.
* **C45** addition and removal of several outputs are not atomic. **C46**
  `isOutputEnabled` throws for outputs added by a class derived from a selector;
  static disabling is not inherited. **C47** an expired listener is
  dereferenced; registering during a notification invalidates its iterator.
* **C48** a second build starts its rows after those of the first; levels never
  shrink; references to freed bounds. A problem with only bounds writes out of a
  1x1 matrix. **C49** free-flyer listed twice; inactive columns of JDot are
  never set. **C50** the error of spherical joints is never written (the test is
  `dof() == 4`) and later joints are misplaced; `posture(j, q)` asserts on index
  0. **C51** a rejected call keeps earlier assignments; with x and dot(x) among
  the variables one overwrites the other; the constructor resets velocities.
* **C52** `add` and `remove` of a linearized problem are not atomic; they are
  not virtual; a task added twice; `remove(substitution)` compares addresses
  with those of its copies and so removes nothing; a constraint in two
  substitutions.
* **C53** The minimum norm fails in three ways: with the option `cholesky`, QLD and
  Quadprog are handed a `Q_` that was never sized; in a debug build an assert of
  `finalizeBuild` fails (`objSize_` is not updated); with LexLS the next build of the
  same object keeps rows of ones (`resize_` reads `autoMinNorm_` before it is reset)
  and gives a wrong solution. The damping of Quadprog moves the solution.
* **C54** Two substitutions with a common constraint pass the checks and violate an
  assert of the calculator when grouped (`r <= m`; without asserts, negative
  sizes); two with a common variable make `finalize` throw, which drops the units and
  keeps the variables and functions of the previous finalization. `finalize` does not
  clear `additionalVariables_`. The rank given to a group (`group`) can exceed that of
  its matrix although the ranks of its substitutions are right. Three variables
  depending on each other and a fourth one on the third make `update` read out of
  `uIsZero_` (see C33). A substitution without variable makes `check` loop
  `size_t(-1)` times.
* **C55** A constructor given the same variable object twice is accepted and keeps only
  the last matrix; with two equal objects it throws. Empty lists are dereferenced
  (`A.begin()->rows()`) before any check. The constructor that allocates accepts an
  SO3 variable, on which no matrix can then be set: `A` requires `x.size()` columns and the
  Jacobian has `x.space().tSize()`. Its value is undefined until every matrix is set, although
  `value` can be read. `A(A, x)` with an object equal to the variable, or with
  a part of it, throws while `jacobian(x)` works.
* **C56** The parameter `dir` ("cone direction") does not reverse the cone by itself (the
  caller reverses the frame as well). With two generators the combinations are in a plane.
* **C57** `removeContact` only forgets how to update the Jacobians of the forces: the
  variables stay in the function, their terms stay in the value with the Jacobians of the
  last update before the removal, or uninitialised if there was none. A contact between two
  frames of the robot is only half removed, and cannot be added again. `contactForce` of
  a linearised contact indexes the variables by `nrGen*i` while there is one per point, which
  is out of range for two points. For the first frame of a contact that is not linearised it
  gives the opposite of the force of the equation. It also applies the rotation of the point
  to forces that are already expressed in the frame.
* **C58** The points in the second frame are computed as `X_f2_f1 * X_f1_p` while the product
  of transformations of SpaceVecAlg is in the other order: they are other physical points
  as soon as the frames or the points are turned. `Contact::Id::operator<` compares `r2` with
  `rhs.f2`: contacts that only differ by the ambiguity number are equivalent, and there are
  ids that are each before the other one (undefined behaviour in a map).
* **C59** `Frame::updateJacobian` adds to the linear rows a product with the linear rows
  of the Jacobian of the body, where the angular ones are needed: the Jacobian is wrong for every frame
  which is not at the origin of its body. `Frame::updateVelocity` applies the transformation from
  the body to the frame to a velocity with the axes of the world: it is wrong for turned frames, and
  for frames away from the origin of the body as soon as the body is turned. The normal acceleration has no
  centripetal term. `GeometricContactFunction` on two frames of one robot keeps the Jacobian of
  the second frame only.
* **C60** `CoMFunction::updateJDot` calls `splitJacobian`, which writes the Jacobian: the derivative of
  the Jacobian is never written and the Jacobian is lost when it is asked for. `Plane::position(normal, offset)`
  leaves the point as it was (zero at first), which is in general not on the plane: the velocity and the
  normal acceleration of `CoMInConvexFunction` are then wrong when the plane turns.
* **C61** `CollisionFunction::updateValue` uses `closestPoints_[i]`, an array of two points, with the
  number of the collision: with three pairs or more (with a robot that moves) it reads after the end of the array.
  For the first two pairs the wrong point is used for one object; this has no effect on the velocity and the Jacobian
  (the difference is along the normal) but the normal acceleration is wrong. The point is given
  in the frame of the hull and used as a point of the body: wrong unless the frame is that of the body. At the first
  tick after a pair is added the previous normal is zero, and the normal acceleration has a term of the velocity over dt.
* **C62** `FirstOrderProvider::removeVariable` removes by value in `variables_` and by pointer in the maps: for another object
  equal to a variable, or a variable not there, the assertion of `Function::removeVariable_` fails (its message says that an
  exception was thrown before; `VariableVector::remove` only returns false). An empty variable is added as many times as asked, but has
  one Jacobian: removing it once leaves it without Jacobian. `addVariable(x, false)` for a part of a variable declared as linear
  is ignored: `linearIn(x)` is true. `resize` keeps the properties of the Jacobians while their content is lost.
* **C63** The bounds on velocities and torques are sized with the number of parameters of `q_joints_` (`q_joints_->size()`) instead of
  its degrees of freedom: with a spherical joint `lVelBound` and `lTauBound` are longer than the velocity and torque vectors. A limit
  on position or velocity for the free-flyer joint is written at a negative index; a vector of limits that is too long sets the
  bounds of the next joint. Several ticks between updates are integrated as one. `dot(q)` is 0 after the construction even if
  the given configuration moves (`mbc_.alpha` is kept and integrated). `Output::Dynamics`, documented as "everything", does not
  update the centre of mass; `NormalAcceleration`, documented as depending on FA, does not. Setting `q` or `dot(q)` has no effect
  on the motion: they are overwritten from `mbc_`.
* **C64** An update that throws because of the rank leaves the decomposition of the new matrix with the null space of the old one:
  further products are not defined (`C64_throw_refuted`).
* **C65** A constraint that has only a part of a substituted variable (the variable being
  whole in another constraint) is accepted, and its coefficients for that part are in no
  matrix: `contains` is tested, not `intersects`. The matrices given to the constructors of
  `BasicLinearConstraint` are declared constant: after a change with `A()` the calculator
  of a substitution built before is not updated. `AutoCalculator` looks at the properties
  once: a jacobian that stops being diagonal is still inverted as if it were. More (redundant)
  equations than elements pass `check` and violate the assertion `m_ <= n_`.
* **C66** The size of a vector is tested when the relation is written, the task is made when it
  is added. If the function has changed size in between, a vector of the old size is used
  behind an `assert` only (`RHS::toVector`), although `Task` would throw.
* **C67** `checkJacobian` compares only the first column: `i` is reset to 0 before the second
  pair of loops and never incremented (`checkFunction.cpp:120-135`), so a jacobian wrong in
  any other column is accepted. The comparison is relative, with the smallest of the two norms:
  a correct function is rejected at a point where its derivative (or its normal acceleration) is
  zero, whatever the precision. A configuration without a value, or with a value of a wrong
  size, is skipped: if there is no other, `checkJacobian` accepts any function. The point
  reached in `checkNormalAcceleration` uses `acc.cwiseProduct(acc)` where a constant
  acceleration would give `acc` (no effect when the step tends to 0).
* **C68** `addInputDependency(u, source, i, args...)` passes only `i` to `addInput` (Node.hpp:148, 165): the other inputs are not checked to be enabled, are not inputs of the node and are not told to the logger as inputs (`C68_inputs_refuted`), so that every walk through the log that meets the dependency throws (C69). An output or update may depend on an update that is never registered; the plan is built and its execution violates the assert of `AbstractNode::update` (`C68_execute_refuted`, exact condition in `C68_execute`). `addOutputDependency` does not check that the update is enabled. Calls for several arguments keep the effect of those before the one that throws (`C68_throw_effect`).
* **C69** The walk throws for a call graph whose plan is fine as soon as an update declares several inputs in one `addInputDependency` call (`C69_throws_refuted`, consequence of C68). `CallGraph::clear` does not tell the logger, so `subGraph` keeps listing what was added before (`C69_clear_refuted`). A logger disabled while nodes are built leaves dangling references that make later walks throw (`C69_disabled_refuted`).
* **C70** A leaf of the tree cannot be told from an output that failed the test: outputs met a second time are leaves (`C70_leaf_refuted`). With the default test, outputs without accessor hide what is behind them (`C70_all_refuted`; the code prints a message). For an unknown graph `followUp` throws while `listOutputVal` returns an empty list (`C70_graph`, `C69_graph`). Both throw when an update declares several inputs in one call (`C70_throws_refuted`).
* **C71** `SingleSolvingRequirement::operator=` from a requirement object (`t->requirements.weight() = Weight(2)`) changes the value without running the callbacks, unlike `= 2.`: the resolution schemes keep the previous weight (`C71_silent`, `C71_announced_refuted`). No callback is registered for the priority level and the violation evaluation, so that their changes are not told either. `value(v)` does not check `v`: a task may get a negative weight (whose square root is then used by the assignments) or a negative priority (`C71_nonnegative_refuted`). `isDefault()` is false for a requirement explicitly given its default value (`C71_default_refuted`).
* **C72** `Substitutions::substitute` looks only at the first substituted variable that meets x. For a variable with two substituted parts (which also arises from one substitution whose constraints split its variable) the variables of the second substitution are not given to the solver: exception in the assignment (`C72_processed_refuted`). If the second one meets x without being a part of it, the exception about granularity is not thrown and the replaced elements are solved for as free variables, to be overwritten by the substitution afterwards (`C72_rewritten_refuted`). `substitutedInto.add` throws or not depending on the order of the variables of the constraint (`C72_order_refuted`). The variables of the additional constraints are not given to the solver: exception when no task uses them (`C72_additional_refuted`). `helpers.cpp:145` asks the jacobian of the substitution for `x[0]`, the first substituted variable, instead of its own variable: for every bound on a substituted variable and every one-sided target canBeUsedAsBound throws `std::out_of_range` (`C72_lookup`); with that corrected, the product of two definite diagonal matrices would still not be known as definite, contrary to the comment in lines 97-102 (`C72_product`). The matrices set by SubstitutionUnit are never declared diagonal, so the schemes do not reach these lines: their bounds are on variables that are not replaced (`C72_scheme_bound`).
* **C73** Copying, running or re-targeting a wrapper that holds nothing, default-constructed or moved from, is undefined instead of an error (`C73_every_wrapper_can_be_copied_refuted`); from() on a default-constructed wrapper throws, on a moved-from one it is undefined for the kind of source of the lost assignment and throws for the other (`C73_empty_wrappers_report_refuted`). The copy assignment is correct also for itself and when memory runs out: the clone is made before the old object is deleted with its own deleter (`C73_throwing_changes_nothing`).
* **C74** `ResolutionScheme::createComputationData` returns before its call to `restore_is_malloc_allowed`: the first resolution of each problem by each scheme leaves allocations allowed and a value on the stack (`C74_solving_keeps_the_permission_refuted`, exact count `C74_one_value_per_scheme_and_problem`). A program that forbade allocations no longer notices them (`C74_check_disabled_refuted`); one that overrides, solves and restores gets the wrong value back, and may be aborted on a legitimate allocation (`C74_mirrored_restore_refuted`). The overrides in `updateComputationData`, in the constructor of SubstitutionUnit and in TVM_TEMPORARY_ALLOW_EIGEN_MALLOC are not restored when the code between throws (`C74_exception_disables_check_refuted`). The variables are set to the content of the solver also when it failed (`C74_failure_keeps_the_variables_refuted`).
* **C75** No drawing of the log, of any graph, can be made once a node has declared several inputs in one call (`addInputDependency` with several values logs one input only, C69): `C75_returns_refuted`; a call graph is drawn with the whole log, so that it throws because of objects the graph does not use. If an update was logged with two functions (address reuse), the walk highlights the first registered and the arrows look for the least: both ends are orange, the arrow is not (`C75_graph_colours_refuted`; `C75_graph_colours_partial` when each update has one function). The "(unique) name" of `nodeName` is the name of the type directly followed by the address: type `P1` at 2 and type `P` at 12 have the same nodes (`C75_unique_names_refuted`); names are unique when those of the types have no digit (`C75_unique_names_partial`). The promoted type is the last new type at an address and not the last one told (`C75_promoted_type_is_last_refuted`).
* **C76** `isInMatrix` takes any type with a method `data`, but for maps whose columns overlap or interleave (Hankel matrices, transposed strides) it answers false for coefficients, `C76_element_refuted`, `C76_transposed_refuted`; `C76_exact_only` shows that its answers are exact for the other layouts only. A map with null strides has no coefficient for it.
* **C77** The Jacobian of `OrientationFunction` is the one of the angular velocity, which is the derivative of the value only when the frame turns around the axis of the error (exactly then: `C77_jacobian_partial`), in particular at the target; otherwise it is not, `C77_jacobian_refuted`, the derivative being given by `C77_derivative`. At half a turn from the target the value jumps (`C77_half_turn_refuted`). The velocity has the defect of the frames (C59): it is right only if the placement of the frame on the body keeps the angular velocity (`C77_velocity_partial`). `orientation(E)` accepts any matrix.
* **C78** With updates that depend on each other in a cycle, `generateUpdateGraph` may return a graph that leaves out an update of an output asked for (`C78_cycle_refuted`, from C18).
* **C79** Two hulls made with the same sch object overwrite each other's position: after the update of both, one is not attached to its frame (`C79_shared_refuted`).
* **C80** The size of a reference is not checked: at order two the constraint takes the difference of vectors of different sizes, at order one its right-hand side has another size than the constraint (`C80_size`, `C80_size_refuted`). A double-sided task with a reference ignores both bounds and is an equality (`C80_double_sided`). At order zero the constant part of the function is left out (`C80_order_zero_refuted`). A null reference is only refused when a task is made (`C80_null`).
* **C81** A resize is not conservative: another number of rows mixes the coefficients, and an allocation loses them (`C81_resize_refuted`); the documentation promises nothing about it. `operator=` returns a reference to a temporary (read, not modelled); it is not used.
* **C82** `Assignment::big_` is shared: a task added to a problem after another scheme was used on another problem gets the number of that scheme, and may refuse values that both the user's constraint and the number of its own scheme allow (`C82_shared_refuted`). Changing the number of a scheme has no effect on a problem until its data are rebuilt (`C82_changed_refuted`).
* **C83** `fromURDF` ignores the entries for joints the robot does not have without any message, so that a misspelt joint stays in the configuration of the file (`C83_reported_refuted`); an entry of another size than the joint is ignored with a message on the error output (`C83_configuration`).
* **C84** once a problem was solved, adding a task, removing one or changing a weight makes the next `solve` of the hierarchical scheme throw (`C84_unsupported`: not implemented), but the events are popped before: when the caller catches the exception and solves again, `solve` soon returns the solution of the old problem, without the new task, with the removed one or with the old weight (`C84_retry`, `C84_stale_refuted`, `C84_removed_refuted`). Adding a substitution makes everything be built again (`C84_recovered`).
* **C85** with `warmStart`, any change processed by the solver drops the active set and the starting point, even when no size changes, for instance when a weight is changed (`C85_kept_refuted`): `process` always calls `resize_`. The dimensions are always right (`C85_dimensions`), unlike those of the hierarchical solver (`C48_same_area_refuted`).
- C87: the slice of a jacobian which can be written to refers to the properties of the whole matrix (FirstOrderProvider.h:94-95). It reports them as its own, which is wrong for one column of an identity (`C87_view_refuted`), and declaring properties which are true of the slice declares them for the whole, which may be wrong (`C87_declare_refuted`). The one use in the code, `BasicLinearFunction::add`, declares constness only, which is safe (`C87_add`).
- C88: after a build of the same area the library of the hierarchical solver stays set up for the variables of the first build (`C48_same_area_refuted`), and a solve can then start from a point of another size (`C88_start_size_refuted`). Solving before any build is undefined (`C88_unbuilt`).

Seen while reading, not modelled: `Clamped(VectorConstRef)` delegates to another class
template; `UpdatelessFunction` throws `runtime_error("")`.

<!-- generated by tools/theorems.py -->

## Theorems and their assumptions

A theorem without mark is "Closed under the global context". The others use axioms of the standard library:
A1 `ClassicalDedekindReals.sig_forall_dec`, A2 `ClassicalDedekindReals.sig_not_dec`,
A3 `FunctionalExtensionality.functional_extensionality_dep`, A4 `Classical_Prop.classic`.

700 theorems, 590 without any axiom.

* **C01** (proved; RangeCountingProps.v): `C01_ranges_maximal_intervals`, `C01_canonical_unique`.
* **C02** (proved; RangeCountingProps.v): `C02_add_flag`, `C02_remove_flag`, `C02_split_always_changes_refuted`.
* **C03** (proved; RangeCountingProps.v): `C03_remove_rejects`.
* **C04** (proved; RangeCountingProps.v): `C04_split_pieces`, `C04_cache_never_stale`.
* **C05** (proved; RangeCountingProps.v): `C05_maxCount`.
* **C06** (proved; RangeProps.v): `C06_contains_int`, `C06_contains_range`, `C06_intersects`, `C06_relativeRange`, `C06_equality`, `C06_intersects_empty_refuted`, `C06_empty_not_in_itself_refuted`.
* **C07** (proved; VariableProps.v): `C07_calls_defined`, `C07_dot_defined`, `C07_chain`, `C07_contains`, `C07_intersects`, `C07_equality`, `C07_dot_sub_commute`, `C07_tangent_range`, `C07_set`, `C07_set_size`, `C07_set_zero`, `C07_set_segment`, `C07_set_index`, `C07_value_cells`, `C07_sub_keeps_values`, `C07_sub_of_derivative_keeps_values_refuted`, `C07_automatic_name_refuted`.
* **C08** (proved; SpaceProps.v): `C08_sizes`, `C08_product_total`, `C08_product`, `C08_product_assoc`, `C08_product_unit`, `C08_order`, `C08_equality`, `C08_unit_type_refuted`, `C08_default_size_refuted`, `C08_group_sizes`, `C08_accepted`.
* **C09** (proved; VarVectorProps.v): `C09_calls_defined`, `C09_disjoint_total`, `C09_add`, `C09_add_list`, `C09_add_vector`, `C09_addAndGetIndex`, `C09_remove`, `C09_remove_index`, `C09_clear`, `C09_contains`, `C09_intersects`, `C09_indexOf`, `C09_copy`, `C09_assign`, `C09_move`, `C09_set_value`, `C09_self_assign_keeps_refuted`, `C09_zero_size_duplicates_refuted`.
* **C10** (proved; VarVectorProps.v): `C10_mapping`, `C10_mapping_of`, `C10_query_pure`, `C10_moved_from_reuse_refuted`, `C10_moved_from_shared_id_refuted`.
* **C11** (proved; VarCountingProps.v): `C11_variables`, `C11_add_flag`, `C11_remove_flag`, `C11_disjoint`, `C11_split_first_call`, `C11_split_refines_adds`, `C11_simple_adds`, `C11_split_pieces_refuted`, `C11_simple_exact_refuted`, `C11_simple_conservative_refuted`, `C11_aligned_needed_refuted`.
* **C12** (proved; PartitionProps.v): `C12_traversal`, `C12_after_adds`, `C12_empty_container_refuted`, `C12_empty_variable_refuted`.
* **C13** (proved; GraphProps.v): `C13_acyclic`, `C13_general`, `C13_throws`, `C13_cycle_rejected_refuted`.
* **C14** (proved; GraphProps.v): `C14_grouped`.
* **C15** (proved; GraphProps.v): `C15_reduce`, `C15_reduced_acyclic`.
* **C16** (proved; GraphProps.v): `C16_equivalence`, `C16_compression`.
* **C17** (proved; GraphProps.v): `C17_edges_exact`, `C17_remove`, `C17_ids_needed`, `C17_addEdge_flag`.
* **C18** (proved; CallGraphProps.v): `C18_plan`, `C18_general`, `C18_needed_or_throw_refuted`, `C18_forwarding_needed_refuted`.
* **C19** (partial; MatPropProps.v): `C19_neg`, `C19_add`, `C19_sub`, `C19_mul`, `C19_scale_partial`, `C19_scale_refuted`.
* **C20** (partial; MatPropProps.v): `C20_neg`, `C20_scale`, `C20_add`, `C20_sub`, `C20_mul`, `C20_never_throws_refuted`.
* **C21** (proved; MatPropProps.v): `C21_implied`, `C21_rejected`, `C21_accepted`, `C21_outcomes`.
* **C22** (partial; AssignProps.v): `C22_feasible`, `C22_accepts`, `C22_frame`, `C22_opposite_refuted`, `C25_free_side`, `C25_opposite_none`.
* **C23** (partial; AssignProps.v): `C23_constructed`, `C23_history_partial`, `C23_stale_refuted`.
* **C24** (partial; BoundProps.v): `C24_box_partial`, `C24_first_partial`, `C24_no_bound`, `C24_unordered_refuted`, `C24_reach_refuted`, `C24_lost_refuted`, `C24_single_target_refuted`.
* **C25** (partial; AssignProps.v): `C25_feasible`, `C25_free_side`, `C25_opposite_none`, `C25_opposite_refuted`, `C22_accepts`.
* **C26** (partial; SolverProps.v): `C26_rows_fill_partial`, `C26_matrix_rows`, `C26_min_norm_refuted`.
* **C27** (partial; SolverProps.v): `C27_problem_partial`, `C27_rebuild_partial`, `C27_process_ok_partial`, `C27_build_ok`, `C27_same_product_refuted`, `C27_diagonal_bound_refuted`, `C26_min_norm_refuted`.
* **C28** (proved; QueueProps.v): `C28_net_effect`, `C28_queue_short`, `C28_addresses_needed_refuted`, `C28_added_twice_refuted`.
* **C29** (proved; SolverEventsProps.v): `C29_net_change`, `C29_objectives_partial`, `C29_objective_data_refuted`, `C29_variable_change_signalled`, `C29_weight_events`.
* **C30** (partial; WlsProps.v): `C30_mirror_partial`, `C30_solve_throws_only_if_partial`, `C30_calls_return_partial`, `C30_exception_loses_task_refuted`, `C30_failed_addition_refuted`, `C30_priority_change_refuted`, `C30_priority_then_removal_refuted`, `C30_weight_assignment_refuted`, `C30_bound_reclassified_refuted`, `C30_resync`, `C30_failed_rebuild_refuted`.
* **C31** (partial; AbilitiesProps.v): `C31_accepts_partial`, `C31_refusals`, `C31_weighted`, `C31_hierarchical`, `C31_scalarised_refuted`, `C31_zero_levels_refuted`.
* **C32** (partial; DiagProps.v): `C32_generalized_inverse`, `C32_null_space`, `C32_left_null_partial`, `C32_left_null_condition`, `C32_left_null_refuted`, `C32_zero_row_out_of_bounds_refuted`, `C32_updates`.
* **C33** (partial; SubstProps.v): `C33_equivalence_partial`, `C33_eliminated`, `C33_update_defined_partial`, `C33_update_defined`, `C33_more_constraints`, `C33_update_defined_iff`, `C33_two_constraints_refuted`, `C33_dependency_refuted`, `C33_zero_flag_partial`, `C33_zero_flag_refuted`.
* **C34** (proved; TokenProps.v): `C34_symmetric`, `C34_effect`, `C34_pair_throws`, `C34_swap`, `C34_self_move_refuted`, `C34_self_pair_refuted`, `C34_handle_refuted`.
* **C35** (proved; CallbackProps.v): `C35_history`, `C35_run`, `C35_run_spec`, `C35_unregister_throws`, `C35_late_handle_refuted`, `C35_self_unregister_refuted`.
* **C36** (proved; DynProps.v): `C36_scaled`, `C36_inside_unchanged`, `C36_bounds`, `C36_symmetric`.
* **C37** (partial; DynProps.v): `C37_constraint`, `C37_safe_first_order_partial`, `C37_safe_second_order_partial`, `C37_safe_constant_acceleration_partial`, `C37_jump_refuted`, `C37_large_step_refuted`, `C37_constant_acceleration_refuted`.
* **C38** (partial; DynProps.v): `C38_constraint`, `C38_continuous`, `C38_non_negative_partial`, `C38_negative_refuted`, `C38_division_by_zero`, `C38_division_refuted`, `C38_safe`.
* **C39** (partial; PDProps.v): `C39_proportional` [A1 A3], `C39_proportional_derivative` [A1 A2 A3], `C39_forms_agree` [A1 A3], `C39_critical_damping_partial` [A1 A2 A3], `C39_matrix_damping` [A1 A2 A3], `C39_matrix_critical_refuted` [A1 A2 A3], `C39_matrix_setter_keeps_stiffness` [A1 A2 A3], `C39_matrix_setter_refuted` [A1 A2 A3], `C39_setters_check` [A1 A2 A3], `C39_constructor`, `C39_constructor_refuted` [A1], `C39_pd_constructor_refuted` [A1], `C39_feed_forward` [A1].
* **C40** (proved; DynProps.v): `C40_reaches`, `C40_trajectory`, `C40_parameters`.
* **C41** (partial; LtcProps.v): `C41_derive`, `C41_constraint`, `C41_double_sided`, `C41_types`, `C41_nonlinear`, `C41_jacobian`, `C41_none`, `C41_constant_refuted`, `C41_dropped_refuted`.
* **C42** (proved; LinFunProps.v): `C42_expression`, `C42_matrices`, `C42_matrices_throw`, `C42_curved`, `C42_setA`, `C42_setB`.
* **C43** (partial; MapVarProps.v): `C43_jacobian`, `C43_jacobian_disjoint`, `C43_subvariables_aligned`, `C43_flat_aligned`, `C43_unaligned_refuted`, `C43_whole_refuted`, `C43_JDot_partial`, `C43_JDot_refuted`.
* **C44** (partial; IdProps.v): `C44_unique`, `C44_order`, `C44_follow`, `C44_never_reused`, `C44_progress`, `C44_no_overflow`, `C44_overflow_refuted`, `C44_moved_from_refuted`, `C44_self_move_refuted`, `C44_compare`, `C44_compare_trans`, `C44_compare_null_refuted`, `C44_clock`, `C44_clock_step`, `C44_clock_wrap_refuted`, `C44_follower`, `C44_follower_late_refuted`, `C44_follower_wrap_refuted`.
* **C45** (partial; InputsProps.v): `C45_history`, `C45_throws`, `C45_atomic_add_one`, `C45_atomic_remove_one`, `C45_atomic_remove_all`, `C45_throw_add`, `C45_throw_remove`, `C45_add_atomic_refuted`, `C45_remove_atomic_refuted`.
* **C46** (partial; OutSelProps.v): `C46_enabled`, `C46_enabled_any`, `C46_request`, `C46_locked`, `C46_several`, `C46_several_atomic_refuted`, `C46_added_output_refuted`, `C46_static_inherited_refuted`.
* **C47** (partial; EventProps.v): `C47_order`, `C47_dead`, `C47_history`, `C47_undefined`, `C47_destroyed_refuted`, `C47_destroy_while_refuted`, `C47_regist_while_refuted`, `C47_once_refuted`.
* **C48** (partial; HlsProps.v): `C48_first_build_partial`, `C48_rebuild_offset`, `C48_rebuild_iff`, `C48_rebuild_refuted`, `C48_fewer_levels_refuted`, `C48_same_area_refuted`, `C48_dangling_bounds_refuted`, `C48_scheme`, `C48_bounds_only_ub`, `C48_bounds_only_refuted`.
* **C49** (partial; JointsProps.v): `C49_active_partial`, `C49_sort_exists`, `C49_throws`, `C49_inactive`, `C49_free_flyer_twice_refuted`, `C49_jdot_refuted`.
* **C50** (partial; PostureProps.v): `C50_velocity_at_own_position`, `C50_value_exact`, `C50_value_position`, `C50_value_at_own_position_partial`, `C50_reset_zero`, `C50_value_refuted`, `C50_spherical_refuted`, `C50_first_joint_refuted`.
* **C51** (partial; UpdatelessProps.v): `C51_value_at_given`, `C51_value_rejects`, `C51_velocity_at_given`, `C51_velocity_rejects`, `C51_disabled`, `C51_construct`, `C51_atomic_refuted`, `C51_with_derivative_refuted`, `C51_construct_refuted`.
* **C52** (partial; PbProps.v): `C52_membership`, `C52_consistent`, `C52_pending`, `C52_weight_notified`, `C52_who_throws`, `C52_add_throws`, `C52_remove_throws`, `C52_remove_throws_state`, `C52_remove_retry`, `C52_add_atomic_refuted`, `C52_remove_atomic_refuted`, `C52_added_twice_refuted`, `C52_added_twice_undefined_refuted`, `C52_base_refuted`, `C52_remove_substitution_refuted`, `C52_two_substitutions_refuted`.
* **C53** (partial; QpProps.v): `C53_feasible`, `C53_cost`, `C53_min_norm`, `C53_solution`, `C53_solvable`, `C53_asserts`, `C53_min_norm_cholesky_refuted`, `C53_min_norm_assert_refuted`, `C53_lexls_rebuild_refuted`, `C53_regularized_refuted`.
* **C54** (partial; SubSetProps.v): `C54_constructed`, `C54_present`, `C54_finalizes`, `C54_variables`, `C54_others`, `C54_elimination_partial`, `C54_values_partial`, `C54_substitute`, `C54_additional`, `C54_additional_refuted`, `C54_shared_variable_refuted`, `C54_shared_constraint_refuted`, `C54_atomic_refuted`, `C54_group_rank_refuted`, `C54_update_refuted`.
* **C55** (partial; BlcProps.v): `C55_accepts`, `C55_variables`, `C55_sum_partial`, `C55_history`, `C55_value`, `C55_curved_unusable`, `C55_repeated_refuted`, `C55_empty_refuted`.
* **C56** (proved; ConeProps.v): `C56_generators` [A1 A2 A4 A3], `C56_sound` [A1 A2 A4 A3], `C56_precise` [A1 A2 A4 A3], `C56_opposite` [A1 A2 A4 A3], `C56_direction_refuted` [A1 A2 A4 A3], `C56_two_refuted` [A1 A2 A4 A3].
* **C57** (partial; DfProps.v): `C57_history` [A1 A2 A4 A3], `C57_equation_partial` [A1 A2 A4 A3], `C57_returns` [A1 A2 A4 A3], `C57_friction` [A1 A2 A4 A3], `C57_force_linear_partial` [A1 A2 A4 A3], `C57_force_second_partial` [A1 A2 A4 A3], `C57_force_first_refuted` [A1 A2 A4 A3], `C57_force_index_refuted` [A1 A2 A4 A3], `C57_force_none` [A1 A2 A4 A3], `C57_remove_refuted` [A1], `C57_stale_refuted` [A1 A2 A4 A3], `C57_removed_first_refuted` [A1 A2 A4 A3], `C57_self_contact_refuted` [A1 A2 A4 A3], `C57_force_rotation_refuted` [A1 A2 A4 A3], `C57_friction_refuted` [A1 A2 A4 A3].
* **C58** (partial; CtcProps.v): `C58_transformations` [A1 A3], `C58_points` [A1 A3], `C58_points_partial` [A1 A3], `C58_points_refuted` [A1 A3], `C58_equal`, `C58_order_partial`, `C58_apart_partial`, `C58_ambiguity_refuted`, `C58_order_refuted`.
* **C59** (partial; FrProps.v): `C59_position` [A1 A3], `C59_motion` [A1 A3], `C59_velocity_partial` [A1 A3], `C59_jacobian_partial` [A1 A3], `C59_jacobian_exact` [A1 A3], `C59_velocity_exact` [A1 A3], `C59_position_value` [A1 A3], `C59_position_velocity_partial` [A1 A3], `C59_contact_value` [A1 A3], `C59_contact_motion` [A1 A3], `C59_contact_jacobian_partial` [A1 A3], `C59_contact_same_robot` [A1 A3], `C59_jacobian_refuted` [A1 A2 A3], `C59_velocity_refuted` [A1 A2 A3], `C59_angular_refuted` [A1 A2 A3], `C59_normal_acceleration_refuted` [A1 A2 A3], `C59_same_robot_refuted` [A1 A2 A3].
* **C60** (partial; PlProps.v): `C60_plane` [A1], `C60_constructed` [A1], `C60_size` [A1], `C60_distance` [A1 A2 A3], `C60_velocity` [A1 A3], `C60_acceleration` [A1 A3], `C60_static` [A1 A3], `C60_com_value` [A1], `C60_com_velocity` [A1], `C60_com_jacobian_partial` [A1], `C60_com_jdot_refuted` [A1], `C60_offset_refuted` [A1 A2 A3], `C60_point_refuted` [A1 A3].
* **C61** (partial; ColProps.v): `C61_size` [A1 A2 A3], `C61_defined_partial` [A1 A2 A3], `C61_value` [A1 A2 A3], `C61_jacobian` [A1 A2 A3], `C61_velocity_partial` [A1 A2 A3], `C61_derivative_partial` [A1 A2 A3], `C61_translation_partial` [A1 A2 A3], `C61_acceleration_translation_partial` [A1 A2 A3], `C61_acceleration_first_partial` [A1 A2 A3], `C61_third_refuted` [A1 A2 A3], `C61_frame_refuted` [A1 A2 A3], `C61_points_refuted` [A1 A2 A3], `C61_first_tick_refuted` [A1 A2 A3].
* **C62** (partial; FopProps.v): `C62_sizes_partial`, `C62_linear_partial`, `C62_defined_partial`, `C62_split`, `C62_resize`, `C62_empty_refuted`, `C62_linear_refuted`, `C62_remove_refuted`, `C62_properties_refuted`.
* **C63** (partial; RobProps.v): `C63_bounds`, `C63_defined`, `C63_root_refuted`, `C63_spill_refuted`, `C63_sizes`, `C63_velocity_sizes`, `C63_sizes_refuted`, `C63_initial`, `C63_runs`, `C63_update`, `C63_idle`, `C63_by_hand`, `C63_follow`, `C63_elapsed_refuted`, `C63_velocity_refuted`, `C63_outputs`, `C63_dynamics_refuted`, `C63_normal_acceleration`, `C63_no_dof`.
* **C64** (proved; GcProps.v): `C64_calculates`, `C64_rank`, `C64_post`, `C64_updates`, `C64_throw_refuted`, `C64_contracts`, `C64_elimination_partial`, `C64_constant_once`.
* **C65** (partial; ScProps.v): `C65_constructed`, `C65_redundant_refuted`, `C65_blocks`, `C65_matrix_partial`, `C65_matrix_refuted`, `C65_constant`, `C65_set_matrix_refuted`, `C65_auto`, `C65_auto_later_refuted`, `C65_set_matrix`.
* **C66** (proved; WrProps.v): `C66_expression`, `C66_variable`, `C66_function`, `C66_refused`, `C66_resized`.
* **C67** (partial; CfProps.v): `C67_jacobian_partial` [A1 A3], `C67_columns` [A1 A3], `C67_jacobian_refuted` [A1 A3], `C67_derivative` [A1 A2 A4 A3], `C67_small_steps` [A1 A3], `C67_velocity` [A1 A3], `C67_normal_acceleration` [A1 A3], `C67_normal_small_steps` [A1 A3], `C67_function_partial` [A1 A3], `C67_affine` [A1 A3], `C67_correct_refuted` [A1 A3], `C67_untested` [A1 A3], `C67_throws` [A1 A3].
* **C68** (partial; NdProps.v): `C68_history`, `C68_declared`, `C68_logged`, `C68_inputs`, `C68_alive`, `C68_throws`, `C68_throw_effect`, `C68_execute`, `C68_inputs_refuted`, `C68_execute_refuted`.
* **C69** (partial; LgProps.v): `C69_output`, `C69_graph`, `C69_plan`, `C69_returns`, `C69_disabled`, `C69_throws_refuted`, `C69_clear_refuted`, `C69_disabled_refuted`.
* **C70** (proved; GpProps.v): `C70_tree`, `C70_graph`, `C70_list`, `C70_list_graph`, `C70_leaf_refuted`, `C70_all_refuted`, `C70_throws_refuted`.
* **C71** (partial; RqProps.v): `C71_arguments`, `C71_order`, `C71_task`, `C71_checked`, `C71_current`, `C71_default`, `C71_default_refuted`, `C71_nonnegative_partial`, `C71_nonnegative_refuted`, `C71_announced_partial`, `C71_silent`, `C71_announced_refuted`.
* **C72** (partial; BsProps.v): `C72_processed_partial`, `C72_processed_refuted`, `C72_variables`, `C72_coarse`, `C72_rewritten`, `C72_rewritten_refuted`, `C72_order_refuted`, `C72_additional_refuted`, `C72_bound`, `C72_scheme_bound`, `C72_targets`, `C72_lookup`, `C72_product`.
* **C73** (proved; CawProps.v): `C73_wrappers_are_values`, `C73_owned_by_exactly_one`, `C73_nothing_leaks`, `C73_undefined_iff_improper`, `C73_copy_is_independent`, `C73_modifiers`, `C73_throwing_changes_nothing`, `C73_runs_with_its_kind_of_source`, `C73_every_wrapper_can_be_copied_refuted`, `C73_empty_wrappers_report_refuted`.
* **C74** (partial; MalProps.v): `C74_solving_keeps_the_permission_refuted`, `C74_solving_keeps_the_permission_partial`, `C74_later_resolution`, `C74_first_resolution`, `C74_balance`, `C74_one_value_per_scheme_and_problem`, `C74_check_disabled_refuted`, `C74_mirrored_restore_refuted`, `C74_exception_disables_check_refuted`, `C74_unchecked_builds`, `C74_solve_gets_its_own_data`, `C74_data_created_once`, `C74_order`, `C74_failure_keeps_the_variables_refuted`, `C74_finalizations`.
* **C75** (partial; DotProps.v): `C75_whole`, `C75_names_exist`, `C75_object`, `C75_graph`, `C75_graph_colours_partial`, `C75_used_target`, `C75_nodes_one_function`, `C75_nodes_return_partial`, `C75_returns_refuted`, `C75_graph_colours_refuted`, `C75_names_of_one_object`, `C75_unique_names_partial`, `C75_unique_names_refuted`, `C75_clean`, `C75_clean_same`, `C75_promoted_type`, `C75_promoted_type_is_last_refuted`, `C75_namespace`.
* **C76** (partial; MiProps.v): `C76_defined`, `C76_sound`, `C76_exact`, `C76_exact_only`, `C76_element_refuted`, `C76_transposed_refuted`, `C76_block`, `C76_blocks`, `C76_steps`, `C76_range`.
* **C77** (partial; OriProps.v): `C77_rotation_vectors` [A1 A2 A4 A3], `C77_value` [A1 A2 A3], `C77_zero` [A1 A2 A4 A3], `C77_unique` [A1 A2 A4 A3], `C77_velocity_partial` [A1], `C77_acceleration_partial` [A1], `C77_derivative` [A1 A2 A4 A3], `C77_jacobian_partial` [A1 A2 A4 A3], `C77_jacobian_refuted` [A1 A2 A4 A3], `C77_half_turn_refuted` [A1 A2 A4 A3].
* **C78** (partial; GuProps.v): `C78_plan`, `C78_throws`, `C78_up_to_date`, `C78_general`, `C78_cycle_refuted`.
* **C79** (partial; ChProps.v): `C79_position` [A1 A3], `C79_defined` [A1 A3], `C79_constructed` [A1 A3], `C79_updated` [A1 A3], `C79_rigid` [A1 A2 A3], `C79_pair` [A1 A3], `C79_shared_refuted` [A1 A3].
* **C80** (partial; RdProps.v): `C80_constraint`, `C80_shortcuts`, `C80_tracks`, `C80_null`, `C80_double_sided`, `C80_order_zero_refuted`, `C80_size`, `C80_size_refuted`.
* **C81** (proved; BmProps.v): `C81_contents`, `C81_allocations`, `C81_no_allocation`, `C81_map`, `C81_calculator`, `C81_kept`, `C81_resize_refuted`.
* **C82** (partial; BgProps.v): `C82_number`, `C82_build`, `C82_same`, `C82_holds`, `C82_shared_refuted`, `C82_changed_refuted`.
* **C83** (partial; UfProps.v): `C83_configuration`, `C83_variable`, `C83_relevant`, `C83_short`, `C83_no_file`, `C83_reported_refuted`.
* **C84** (partial; HpProps.v): `C84_current`, `C84_defined`, `C84_unsupported`, `C84_retry`, `C84_stale_refuted`, `C84_removed_refuted`, `C84_recovered`, `C84_weights`.
* **C85** (partial; LxProps.v): `C85_defined`, `C85_unbuilt`, `C85_dimensions`, `C85_warm`, `C85_cold`, `C85_off`, `C85_valid`, `C85_kept_refuted`.
* **C86** (proved; OptProps.v): `C86_getter`, `C86_reaches`, `C86_copied`, `C86_default`.
* **C87** (partial; SlcProps.v): `C87_slice`, `C87_write`, `C87_history`, `C87_add`, `C87_view_refuted`, `C87_declare_refuted`.
* **C88** (proved; WsProps.v): `C88_given`, `C88_no_other_effect`, `C88_valid`, `C88_unbuilt`, `C88_start_size_refuted`.
