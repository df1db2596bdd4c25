{"id": "C01", "title": "Range counting reports exactly the union of what is still added", "statement": "After any history of RangeCounting::add and RangeCounting::remove calls, ranges(false) is the list of the maximal disjoint intervals, in increasing order, of the integers covered by at least one range added and not yet removed.", "quantifier": "every finite history of add/remove calls with arbitrary non-negative integer ranges, including overlapping, adjacent, nested, duplicated and empty ranges and removals that do not match an earlier add", "why_tests_cant": "the history is unbounded and the interesting cases are combinations of coincident endpoints; a test fixes a handful of histories", "anchors": ["src/internal/RangeCounting.cpp: add, remove, insert, moveToFirstAfter, recompute, ranges", "include/tvm/internal/RangeCounting.h"]}
{"id": "C02", "title": "RangeCounting::add and remove tell exactly when the union changes", "statement": "add (resp. remove) returns true if and only if the list returned by ranges(false) after the call differs from the one before it.", "quantifier": "every reachable counter state and every range", "why_tests_cant": "requires comparing against every reachable state; callers (VariableCountingVector) skip invalidation when false is returned", "anchors": ["src/internal/RangeCounting.cpp: add, remove"]}
{"id": "C03", "title": "Removing a range that is not fully counted is rejected without effect", "statement": "remove(r) succeeds exactly when every integer of r is currently counted at least once; otherwise it throws and the counter's observable content (counts, limits, ranges, maxCount) is unchanged.", "quantifier": "every reachable counter state and every range", "why_tests_cant": "failure atomicity over all states and all ranges cannot be enumerated", "anchors": ["src/internal/RangeCounting.cpp: remove, insert"]}
{"id": "C04", "title": "Split ranges partition the counted set into pieces of constant count", "statement": "ranges(true) is a sorted list of disjoint non-empty intervals whose union is the counted set, and the count is constant on each of them; whichever of ranges(true)/ranges(false) was asked before, and whatever was cached, the answer is that of the current content.", "quantifier": "every history of add/remove/ranges(split)/maxCount calls in any interleaving", "why_tests_cant": "the answer is lazily cached; only an interleaving-independent argument shows the cache is never stale", "anchors": ["src/internal/RangeCounting.cpp: ranges, recompute, limits"]}
{"id": "C05", "title": "maxCount is the largest multiplicity", "statement": "maxCount() is the maximum over the integers of the number of ranges covering it (0 when nothing is counted), and the internal limit list is always a well-formed bracket sequence (depth never negative, ends at zero).", "quantifier": "every reachable counter state", "why_tests_cant": "universal over histories", "anchors": ["src/internal/RangeCounting.cpp: maxCount, isValid"]}
{"id": "C06", "title": "Ranges behave as integer intervals", "statement": "Range::contains, intersects, relativeRange and end agree with set inclusion, non-empty intersection and translation of the integer sets they denote, for non-empty ranges; the behaviour of empty ranges is the documented one.", "quantifier": "all pairs of integer ranges", "why_tests_cant": "all-pairs arithmetic statement with degenerate (empty) cases", "anchors": ["include/tvm/Range.h"]}
{"id": "C07", "title": "Sub-variables denote slices of their super-variable", "statement": "A sub-variable of a sub-variable denotes the composed slice of the base variable; contains/intersects between any two variables hold exactly when the index sets of the slices do (and the variables share the base and the derivation order); derivatives commute with taking sub-variables; writing a sub-variable writes exactly its slice of the base value and nothing else.", "quantifier": "all nested chains of subvariable/dot operations on all spaces", "why_tests_cant": "chains are unbounded and the arithmetic depends on size, rSize, tSize of arbitrary spaces", "anchors": ["src/Variable.cpp: subvariable, dot, basePrimitive, superVariable, contains, intersects, operator==", "include/tvm/Space.h"]}
{"id": "C08", "title": "Space type and sizes are consistent", "statement": "For every Space built through the API with accepted arguments, size() is at most rSize() and tSize(), a space is Euclidean only if the three sizes are equal, the product of two spaces adds the three sizes, is Euclidean exactly when both factors are, is associative and has the zero space as a unit up to type, and <= is the componentwise order.", "quantifier": "all spaces constructible through the API and all finite products", "why_tests_cant": "universal over triples of sizes and products", "anchors": ["src/Space.cpp, include/tvm/Space.h"]}
{"id": "C09", "title": "A VariableVector is the duplicate-free concatenation of what was added and not removed", "statement": "After any history of add/remove/clear on a VariableVector of non-empty variables, variables() are pairwise non-intersecting, in insertion order, totalSize() is the sum of their sizes, add returns false exactly if the variable was already contained, an add of a variable that partially overlaps throws without changing the vector, a remove of an absent variable returns false without changing it, and remove of an invalid index throws without changing it.", "quantifier": "every finite history of operations", "why_tests_cant": "unbounded histories; failure atomicity", "anchors": ["src/VariableVector.cpp: add, remove, clear, contains, indexOf, totalSize", "include/tvm/VariableVector.h"]}
{"id": "C10", "title": "getMappingIn returns the position in the current concatenation", "statement": "For every variable contained in a vector, Variable::getMappingIn returns the range starting at the sum of the sizes of the preceding variables and with the variable's size, whatever sequence of modifications, copies, moves and queries on any number of vectors happened before (cached mappings are never stale).", "quantifier": "every interleaved history over arbitrarily many variables and vectors", "why_tests_cant": "the cache is shared between vectors through time stamps; staleness only shows in particular interleavings", "anchors": ["src/Variable.cpp: getMappingIn", "src/VariableVector.cpp: getNewStamp, computeMapping, add, remove"]}
{"id": "C11", "title": "A VariableCountingVector contains a variable as long as one contributor still adds it", "statement": "After any history of add/remove, variables() denotes exactly the union of the parts of variables that have been added more often than removed, and simple() tells whether all of these are counted once/are whole variables.", "quantifier": "every history of add/remove with arbitrary nested sub-variables, split or not", "why_tests_cant": "unbounded histories with lazily recomputed output", "anchors": ["src/internal/VariableCountingVector.cpp", "include/tvm/internal/VariableCountingVector.h"]}
{"id": "C12", "title": "A partition traversal visits every variable part once", "statement": "Iterating a VariableVectorPartition yields, in order, disjoint sub-variables that concatenate to the iterated vector, each lying inside exactly one of the parts the partition was built from.", "quantifier": "every vector and every admissible partition", "why_tests_cant": "iterator state machine over arbitrary data; out-of-range access only in corner cases", "anchors": ["include/tvm/internal/VariableVectorPartition.h"]}
{"id": "C13", "title": "Dependency order is a complete topological order", "statement": "For every finite dependency graph, order() either throws because the graph has a cycle or returns every node exactly once with each node after everything it depends on.", "quantifier": "every sequence of addNode/addEdge/removeNode, hence every finite directed graph", "why_tests_cant": "all graphs; tests use a few small ones (the failing shape is a root plus a disjoint cycle)", "anchors": ["src/graph/DependencyGraph.cpp: order, orderUtil"]}
{"id": "C14", "title": "Grouped order separates independent parts", "statement": "groupedOrder() partitions the nodes so that two nodes are in the same group exactly if they are connected by dependencies ignoring direction, and each group is topologically sorted.", "quantifier": "every finite directed graph without cycle", "why_tests_cant": "all graphs", "anchors": ["src/graph/DependencyGraph.cpp: groupedOrder, DisjointSet"]}
{"id": "C15", "title": "Reduction yields exactly the strongly connected components", "statement": "reduce() returns the partition of the nodes into strongly connected components together with the acyclic graph of dependencies between them.", "quantifier": "every finite directed graph", "why_tests_cant": "all graphs; recursion with low-links is only correct by an invariant", "anchors": ["src/graph/DependencyGraph.cpp: reduce, tarjan"]}
{"id": "C16", "title": "The disjoint-set structure represents the generated equivalence", "statement": "After any sequence of unions, two elements have the same root exactly if they are related by the equivalence generated by the united pairs; path compression never changes the classes and root lookup terminates.", "quantifier": "every history of makeSet/union/root calls", "why_tests_cant": "unbounded histories, mutable parents", "anchors": ["src/graph/DependencyGraph.cpp: DisjointSet", "include/tvm/graph/internal/DependencyGraph.h"]}
{"id": "C17", "title": "Removing a node removes exactly the node and its edges", "statement": "removeNode deletes the node and all incident edges, keeps every other edge, and the roots reported afterwards are exactly the nodes nobody depends on; exceptions leave the graph unchanged.", "quantifier": "every graph and node", "why_tests_cant": "all graphs and histories", "anchors": ["src/graph/DependencyGraph.cpp: addNode, addEdge, removeNode"]}
{"id": "C18", "title": "The call graph runs every needed update once, dependencies first", "statement": "After update(), execute() calls each update on which a registered output transitively depends exactly once, calls no other update, and calls every update after all the updates it transitively depends on through internal, input and direct dependencies.", "quantifier": "every finite network of nodes with acyclic dependencies and every set of registered inputs", "why_tests_cant": "all networks", "anchors": ["src/graph/CallGraph.cpp", "include/tvm/graph/internal/AbstractNode.h"]}
{"id": "C19", "title": "Matrix-property arithmetic is sound", "statement": "If the operands have the properties they declare (shape, symmetry, positivity, constness, invertibility), the result of unary minus, scalar product, sum and product has the properties computed for it.", "quantifier": "all real matrices of all sizes and all property values that can be built", "why_tests_cant": "quantifies over real matrices and over all property combinations", "anchors": ["src/internal/MatrixProperties.cpp", "include/tvm/internal/MatrixProperties.h"]}
{"id": "C20", "title": "Matrix-property arithmetic is total on consistent operands", "statement": "Negation, scaling, adding or multiplying matrices with consistent declared properties never throws.", "quantifier": "all property values that can be built and all scalars", "why_tests_cant": "exhaustive over property combinations and scalars of every sign", "anchors": ["src/internal/MatrixProperties.cpp: operator+, operator*, build"]}
{"id": "C21", "title": "Property construction rejects exactly contradictory declarations", "statement": "Building properties from any set of arguments either throws because no matrix can satisfy the arguments together, or returns properties implied by the arguments.", "quantifier": "all argument lists, in any order", "why_tests_cant": "exhaustive over combinations plus a semantic (matrix) side", "anchors": ["src/internal/MatrixProperties.cpp: build, checkShape, checkSymmetry, checkPositiveness"]}
{"id": "C22", "title": "Assignments preserve the feasible set", "statement": "For every constraint (equality, lower, upper, double-sided; right-hand side zero, as given or opposite) assigned into a target of any compatible convention, a point satisfies the rows written in the target if and only if it satisfies the constraint.", "quantifier": "all sizes, matrices, right-hand sides, variables, constraint types and target conventions, including a double-sided source into a single-sided double-size target and a single-sided source into a double-sided target", "why_tests_cant": "sign errors only show up for particular combinations of 4 types x 3 rhs conventions x targets", "anchors": ["src/scheme/Assignment.cpp: build, processTargetRhs, assignRhs*", "include/tvm/scheme/internal/Assignment.h"]}
{"id": "C23", "title": "Weights scale an objective by the square root convention consistently", "statement": "For an objective with weight w, anisotropic weight a and scalarization factor s, the residual of the assigned rows is the residual of the source rows multiplied by sqrt(w)*s*sqrt(a), matrix and right-hand side alike, after construction and after any history of weight updates and runs.", "quantifier": "all weights, all rows, all histories of weight changes", "why_tests_cant": "histories of mixed scalar/vector weight updates", "anchors": ["src/scheme/Assignment.cpp: weights, onUpdateWeights"]}
{"id": "C24", "title": "Bounds assigned to a variable intersect", "statement": "When several bound constraints on a variable are assigned to a solver's bound vectors, the resulting box is the intersection of the boxes of the constraints, for bounds of the form x, -x and D x with D diagonal of any sign, and for variables that have no bound the box is unrestricted.", "quantifier": "all lists of bounds, signs and orders of assignment", "why_tests_cant": "order independence and sign handling over all lists", "anchors": ["src/scheme/Assignment.cpp: addBound, addZeroMultiplication...", "src/scheme/helpers.cpp: isBound, canBeUsedAsBound"]}
{"id": "C25", "title": "Substituted constraints are equivalent on the remaining variables", "statement": "If x = -A#B y + N z + A#c are the substitutions, then a constraint on (x, ...) assigned with the substitutions holds at (y,z,...) if and only if the original one holds at the reconstructed x.", "quantifier": "all constraints, substitutions and dimensions", "why_tests_cant": "real-matrix identity over all dimensions with accumulated terms when several substitutions share variables", "anchors": ["src/scheme/Assignment.cpp: addSubstitution...", "src/hint/Substitutions.cpp"]}
{"id": "C26", "title": "Constraint rows never overlap in the solver's matrices", "statement": "After any history of builds and incremental changes of a least-square solver, the row ranges of the equality constraints, inequality constraints and objectives are pairwise disjoint, contiguous, and exactly fill the matrices' rows.", "quantifier": "all histories of addition and removal of constraints of any size and type, for solvers that do and do not handle double-sided constraints natively", "why_tests_cant": "unbounded histories", "anchors": ["src/solver/LeastSquareSolver.cpp: process, addConstraint, updateEqualityTargetData,..."]}
{"id": "C27", "title": "Incremental solver updates equal a rebuild", "statement": "After process(events) the data given to the solver is the one startBuild/add*/finalizeBuild would have produced for the resulting problem.", "quantifier": "all problems and all event sets", "why_tests_cant": "unbounded; depends on whether memory is reallocated", "anchors": ["src/solver/LeastSquareSolver.cpp: process", "src/solver/QLDLeastSquareSolver.cpp: resize_", "src/solver/QuadprogLeastSquareSolver.cpp", "src/solver/LSSOLLeastSquareSolver.cpp"]}
{"id": "C28", "title": "The pending-event queue keeps the net effect", "statement": "For every history of task additions, removals and weight changes between two solves, processing the queue (in which an addition directly followed by the removal of the same task cancels) leads to the same set of tasks and weights as applying the calls one by one.", "quantifier": "every history of events between solves", "why_tests_cant": "unbounded histories", "anchors": ["include/tvm/scheme/internal/ProblemComputationData.h: addEvent, popEvent", "src/ControlProblem.cpp"]}
{"id": "C29", "title": "Solver events cancel pairs and keep the net change", "statement": "For every valid sequence of constraint, bound, objective and variable additions/removals, the sets stored in SolverEvents are disjoint and applying them to the old problem gives the problem obtained by applying the sequence.", "quantifier": "every sequence of add/remove calls", "why_tests_cant": "unbounded sequences", "anchors": ["include/tvm/solver/internal/SolverEvents.h: addIfPair, addConstraint, removeConstraint, addVariable"]}
{"id": "C30", "title": "Scheme memory mirrors the problem after every solve", "statement": "After solve(), the constraints, bounds and objectives held by the weighted-least-square memory are those of the tasks currently in the problem, with their current priority and weight, whatever was added, removed and re-weighted (including calls that threw) before.", "quantifier": "every history of add/remove/weight change/solve calls, with failures at any point", "why_tests_cant": "histories with exceptions at arbitrary points", "anchors": ["src/scheme/WeightedLeastSquares.cpp: updateComputationData_, addTask, removeTask", "include/tvm/scheme/internal/ProblemComputationData.h"]}
{"id": "C31", "title": "A scheme accepts exactly the requirements it declares to support", "statement": "SchemeAbilities::check accepts a task exactly if its priority level, constraint type and violation evaluation are declared; in particular scalarised priorities are accepted for every level at and above the first soft one.", "quantifier": "all priority levels and all declared ability tables", "why_tests_cant": "all natural numbers as priority", "anchors": ["src/scheme/SchemeAbilities.cpp: check", "include/tvm/scheme/internal/SchemeAbilities.h", "src/scheme/WeightedLeastSquares.cpp: abilities_"]}
{"id": "C32", "title": "Diagonal substitution calculators invert exactly the diagonal", "statement": "For a matrix with the declared (shifted, partial) diagonal structure, the diagonal calculator applies a generalized inverse A# (A A# A = A), a basis N of the null space of A and a basis S of the null space of A^T.", "quantifier": "all sizes, positions of non-zero and zero entries, and right-hand matrices", "why_tests_cant": "all index patterns", "anchors": ["src/hint/DiagonalCalculator.cpp"]}
{"id": "C33", "title": "Elimination by substitution preserves the solution set", "statement": "For every group of substitutions processed together, (x,y) satisfies the substitution constraints if and only if there is z such that x is the value the unit computes and the remaining constraint S^T B y = S^T c holds.", "quantifier": "all dimensions, ranks and chains of dependent substitutions", "why_tests_cant": "real-matrix statement over all dimensions and dependency chains", "anchors": ["src/hint/SubstitutionUnit.cpp: update, initialize", "src/hint/Substitutions.cpp: finalize, updateSubstitutions, updateVariableValues"]}
{"id": "C34", "title": "Paired tokens stay paired through moves and never dangle", "statement": "Two tokens that have been paired refer to each other; after any sequence of moves, swaps and destructions the relation stays symmetric and no token refers to a destroyed or moved-from token.", "quantifier": "every history of pair/move/destroy operations on any number of tokens", "why_tests_cant": "unbounded histories of object lifetimes (dangling pointers)", "anchors": ["include/tvm/internal/PairElementToken.h"]}
{"id": "C35", "title": "Callbacks run exactly while their registration is alive", "statement": "CallbackManager::run invokes exactly the callbacks registered whose token is still alive, once each, in registration order.", "quantifier": "every history of registration, token move/destruction and run", "why_tests_cant": "unbounded histories of lifetimes", "anchors": ["include/tvm/internal/CallbackManager.h"]}
{"id": "C36", "title": "Clamping scales and never exceeds the bounds", "statement": "Clamped task dynamics return s times the wrapped value with 0<=s<=1, inside [min,max] componentwise, with s the largest such factor, hence unchanged values already inside; the direction is preserved.", "quantifier": "all values, all bounds with min<=0<=max, all sizes", "why_tests_cant": "real vectors of all sizes", "anchors": ["include/tvm/task_dynamics/Clamped.h"]}
{"id": "C37", "title": "Velocity damper keeps the safety distance", "statement": "If the constraint produced by a velocity damper (first or second order, lower or upper) is satisfied at every control step and the step is not larger than (di-ds)/xsi, a function starting on the safe side of the safety distance stays there forever; outside of the interaction distance the constraint is not restrictive.", "quantifier": "all trajectories, step numbers and parameters", "why_tests_cant": "infinite trajectories over reals", "anchors": ["src/task_dynamics/VelocityDamper.cpp"]}
{"id": "C38", "title": "Automatic damping is continuous and non-negative", "statement": "With automatically computed damping, at the step where the damper activates the current velocity satisfies the constraint with the chosen offset, and the damping coefficient used is never negative.", "quantifier": "all activation states (distance, velocity)", "why_tests_cant": "real parameters; failing cases are particular signs and the division at d=ds", "anchors": ["src/task_dynamics/VelocityDamper.cpp: computeDamping"]}
{"id": "C39", "title": "Proportional and PD dynamics compute their law with a valid damping", "statement": "Proportional returns -kp(f-rhs) and PD returns -kp(f-rhs)-kv*f', for scalar, diagonal and matrix gains alike with the three forms agreeing; gains given without damping are critically damped, i.e. kv*kv = 4 kp; ill-sized gains are rejected.", "quantifier": "all gains, values, sizes", "why_tests_cant": "real-matrix statement", "anchors": ["src/task_dynamics/Proportional.cpp", "src/task_dynamics/ProportionalDerivative.cpp"]}
{"id": "C40", "title": "One-step dynamics reach the target in one step", "statement": "If the requested derivative is realised over the time step, the function equals its right-hand side at the end of the step (order 1 and order 2 with constant acceleration).", "quantifier": "all values, velocities and steps", "why_tests_cant": "real-valued universal statement", "anchors": ["src/task_dynamics/OneStepToZero.cpp"]}
{"id": "C41", "title": "A linearised task constraint is the task's dynamics at its order", "statement": "For a task of order 0, 1 or 2, a point satisfies the linearised constraint if and only if the corresponding derivative of the function (value, J v, J a + normal acceleration) satisfies the relation with the value of the task dynamics; a double-sided task imposes both sides.", "quantifier": "all functions, task types and orders", "why_tests_cant": "real-matrix statement for all sizes", "anchors": ["src/constraint/LinearizedTaskConstraint.cpp", "src/Task.cpp"]}
{"id": "C42", "title": "Linear functions and affine expressions evaluate to their meaning", "statement": "A BasicLinearFunction built from matrices, variables and a constant, or from an affine expression, evaluates to the sum of A_i x_i plus b for all variable values, also if a variable occurs several times in the expression.", "quantifier": "all expressions, variables and values", "why_tests_cant": "all expression trees", "anchors": ["src/function/BasicLinearFunction.cpp", "include/tvm/function/BasicLinearFunction.h", "include/tvm/utils/AffineExpr.h"]}
{"id": "C43", "title": "Jacobian access by sub-variable returns the matching columns", "statement": "Looking up a quantity stored per variable (jacobian, JDot) with a variable contained in a stored one returns exactly the columns of its relative range; a variable in no stored one is rejected.", "quantifier": "all maps, all variables and sub-variables of all spaces", "why_tests_cant": "all maps and nested sub-variables", "anchors": ["include/tvm/utils/internal/MapWithVariableAsKey.h", "src/internal/FirstOrderProvider.cpp"]}
{"id": "C44", "title": "Identifiers are unique and time is monotone", "statement": "Object identifiers are pairwise distinct over any history of creations; the clock never goes back and increases by exactly one tick per step.", "quantifier": "all histories", "why_tests_cant": "unbounded histories, wrap-around", "anchors": ["include/tvm/internal/IdProvider.h", "include/tvm/internal/ObjWithId.h", "src/Clock.cpp"]}
{"id": "C45", "title": "Inputs record exactly the requested outputs", "statement": "After any history of addInput/removeInput, an Inputs object holds for each source exactly the outputs added and not removed, keeps alive exactly the sources still used that were added with shared ownership, and throws without change on invalid requests.", "quantifier": "all histories", "why_tests_cant": "unbounded histories; failure atomicity", "anchors": ["include/tvm/graph/internal/Inputs.hpp", "src/graph/Inputs.cpp"]}
{"id": "C46", "title": "Output enabling respects locks and static disabling", "statement": "An output is reported enabled exactly if it is not statically disabled and the last unlocked enable/disable request for it was not a disable; requests while locked throw without effect.", "quantifier": "all histories of enable/disable/lock/unlock", "why_tests_cant": "unbounded histories", "anchors": ["include/tvm/graph/abstract/OutputSelector.h"]}
{"id": "C47", "title": "Event notification reaches every live listener", "statement": "notify(e) delivers e once to each listener registered for e that is still alive, in registration order, and is safe if listeners have been destroyed.", "quantifier": "all histories of registration, destruction and notification", "why_tests_cant": "object lifetimes", "anchors": ["src/event/Source.cpp"]}
{"id": "C48", "title": "A hierarchical solver can be rebuilt", "statement": "After startBuild, constraints of each level are assigned rows starting at zero independently of earlier builds, and the ranges fill the level's rows.", "quantifier": "all sequences of builds with any number of levels", "why_tests_cant": "sequence of builds", "anchors": ["src/solver/HierarchicalLeastSquareSolver.cpp: startBuild, addConstraint"]}
{"id": "C49", "title": "Joint selection keeps exactly the active columns", "statement": "The Jacobian of a joint selector equals that of the wrapped function on the columns of the active joints and is zero elsewhere, for every list of active (or inactive) joint names.", "quantifier": "all multi-bodies and joint lists", "why_tests_cant": "all lists and joint layouts", "anchors": ["src/robot/JointsSelector.cpp"]}
{"id": "C50", "title": "Posture error and velocity use the same layout", "statement": "In the posture function the error and velocity of every joint are written at the joint's own position in the derivative vector.", "quantifier": "all multi-bodies mixing joint types", "why_tests_cant": "all multi-bodies", "anchors": ["src/robot/PostureFunction.cpp: updateValue, updateVelocity"]}
{"id": "C51", "title": "Evaluating a function at given values leaves nothing stale", "statement": "An UpdatelessFunction call assigns each provided value to the right variable, rejects wrong numbers or sizes of values, and returns the function's output at these values.", "quantifier": "all functions and argument lists", "why_tests_cant": "all argument lists", "anchors": ["src/utils/UpdatelessFunction.cpp"]}
{"id": "C52", "title": "Control-problem membership survives failures", "statement": "A task is in the problem exactly if it was added and not removed; if add or remove throws, membership, substitutions and pending notifications are as before the call.", "quantifier": "all histories with failures at any point", "why_tests_cant": "exceptions at arbitrary points", "anchors": ["src/ControlProblem.cpp", "src/LinearizedControlProblem.cpp: add, remove, removeSubstitutionFor"]}
{"id": "C53", "title": "The numerical solver gets the user's problem", "statement": "At every solve, whatever problems the solver object has been built for before and whatever its options, the data handed to QLD, Quadprog, LSSOL or LexLS are well formed and describe a problem with the same feasible points as the user's constraints and bounds, and whose cost is the sum of the squared weighted errors (or the squared norm when the minimum norm is asked), up to a constant and to the regularization the options announce.", "quantifier": "all problems, values, options, and histories of builds and solves of the same object", "why_tests_cant": "the four solvers keep buffers across builds and solves, some of which the numerical solver overwrites; tests only compare solutions of a few problems", "anchors": ["src/solver/LeastSquareSolver.cpp", "src/solver/QLDLeastSquareSolver.cpp", "src/solver/QuadprogLeastSquareSolver.cpp", "src/solver/LSSOLLeastSquareSolver.cpp", "src/solver/LexLSLeastSquareSolver.cpp"]}
{"id": "C54", "title": "A set of substitutions eliminates its variables", "statement": "Whatever substitutions were added to and removed from the set, finalize succeeds, and after every update the assignments of the variables that satisfy all the substitution constraints are exactly those given by the substitution functions for values of the nullspace variables satisfying the additional constraints; variables(), otherVariables() and additionalVariables() list what was eliminated, what is left and what was introduced, and substitute() gives no eliminated variable.", "quantifier": "all histories of add, remove, finalize and update, all constraints, dependency graphs between substitutions (chains, cycles), sizes, ranks and values", "why_tests_cant": "the tests use a few fixed sets; the grouping of cyclic dependencies, the order of elimination and repeated finalizations depend on the whole graph", "anchors": ["src/hint/Substitutions.cpp", "include/tvm/hint/internal/Substitutions.h", "src/hint/Substitution.cpp", "src/hint/SubstitutionUnit.cpp"]}
{"id": "C55", "title": "A basic linear constraint is the one it was given", "statement": "A BasicLinearConstraint built from matrices A_1..A_n, variables x_1..x_n and right-hand sides stands for the constraint A_1 x_1 + ... + A_n x_n = / >= / <= (+/-) b, or l <= ... <= u; a constructor returns exactly if the sizes agree and the variables are Euclidean and do not overlap, and throws otherwise. After any sequence of calls of A, b, l and u, each matrix (with its properties) and each right-hand side is the one given by the last call that was allowed, the calls that were not allowed threw and changed nothing, and the value is the sum of the products for all values of the variables.", "quantifier": "all constructors, numbers of variables, sizes, overlaps between variables, constraint types, kinds of right-hand side, sequences of calls (including calls that throw) and values of the variables", "why_tests_cant": "the tests build a few constraints with distinct variables; the interplay of types, right-hand sides, overlapping variables and refused calls is unbounded", "anchors": ["src/constraint/BasicLinearConstraint.cpp", "include/tvm/constraint/BasicLinearConstraint.h", "src/constraint/LinearConstraint.cpp", "src/constraint/Constraint.cpp", "src/constraint/RHSVectors.cpp"]}
{"id": "C56", "title": "The linearised friction cone approximates the friction cone", "statement": "FrictionCone(frame, nrGen, mu, dir) has nrGen generators, unit vectors on the boundary of the friction cone of coefficient mu around the frame normal; every combination of them with non-negative coefficients is in the friction cone; every force of the friction cone of coefficient mu cos(pi/nrGen) is such a combination; the generators of the reversed frame and direction are the opposite vectors.", "quantifier": "all frames, numbers of generators, friction coefficients, forces and non-negative coefficients", "why_tests_cant": "quantifies over real frames, coefficients and forces; a test samples a few", "anchors": ["src/robot/FrictionCone.cpp", "include/tvm/robot/internal/FrictionCone.h"]}
{"id": "C57", "title": "The dynamic function is the residual of the equation of motion with contact forces", "statement": "After any sequence of addContact, removeContact and updates, the value of DynamicFunction is H ddq + C - tau minus the sum of the generalised forces of the contacts present, for the last configuration; addContact answers whether the contact is new and concerns the robot; with the constraints of addPositiveLambdaToProblem the force at each point of a linearised contact is in its friction cone; contactForce gives the wrench that these forces exert.", "quantifier": "all call sequences, contacts, points, configurations, variable values", "why_tests_cant": "quantifies over real configurations and forces and over unbounded call sequences; a test samples a few", "anchors": ["src/robot/DynamicFunction.cpp", "include/tvm/robot/internal/DynamicFunction.h"]}
{"id": "C58", "title": "A contact describes the same points in both frames and has an ordered identifier", "statement": "The transformations X_f1_f2 and X_f2_f1 of a Contact change coordinates between its frames and are inverse of each other; f1Points are the points given and f2Points are the same physical points seen from the second frame; Contact::Id compares equal exactly when all fields are equal and operator< is a strict weak order, consistent with it, so that ids can be used in maps and sets.", "quantifier": "all frame positions, points, names and ambiguity numbers", "why_tests_cant": "quantifies over real transformations and over all pairs and triples of identifiers; tests use aligned frames and few ids", "anchors": ["include/tvm/robot/Contact.h", "src/robot/Contact.cpp"]}
{"id": "C59", "title": "Frames give the position, the velocity and the Jacobian of the frame on its body", "statement": "For a frame fixed on a body with X_b_f: position is the pose of the frame; velocity is the time derivative of the pose; the Jacobian times the joint velocities is the velocity; the normal acceleration is the acceleration without joint acceleration. PositionFunction is the position minus the last target, with these derivatives; GeometricContactFunction compares the relative position with the one of its first update and its Jacobian times the joint velocities is its velocity.", "quantifier": "all transformations, motions of the body, joint velocities, call sequences", "why_tests_cant": "derivatives along all motions and all fixed transformations; the tests of the repository use the identity or no rotation", "anchors": ["src/robot/Frame.cpp", "src/robot/PositionFunction.cpp", "src/robot/GeometricContactFunction.cpp"]}
{"id": "C60", "title": "Planes and functions of the centre of mass: signed distance and derivatives", "statement": "A Plane keeps the normal, offset, point and derivatives given last, and its point is on it. CoMInConvexFunction has one row for each plane added since the last reset; for unit normals the value is the signed distance of the centre of mass to the plane, velocity is its time derivative, and J q'' plus the normal acceleration is the derivative of the velocity, for moving planes. CoMFunction is the centre of mass minus the last target, with its velocity, Jacobian, derivative of the Jacobian and normal acceleration.", "quantifier": "all call sequences, all motions of the planes and of the centre of mass", "why_tests_cant": "derivatives along all motions, and all sequences of calls; no test of the repository moves a plane", "anchors": ["src/geometry/Plane.cpp", "src/robot/CoMInConvexFunction.cpp", "src/robot/CoMFunction.cpp"]}
{"id": "C61", "title": "Distances between hulls: value, velocity, Jacobian and normal acceleration", "statement": "CollisionFunction has one row for each pair of hulls added since the last reset. The value is the signed distance given by the closest points; the velocity is its time derivative (the velocity of the closest points of the two bodies along the normal), the Jacobian times the velocities of the joints of all the robots is the velocity, and the normal acceleration has the accelerations of these points along the normal and the change of the normal between two ticks.", "quantifier": "all call sequences, all hulls, robots, frames and motions", "why_tests_cant": "derivatives along all motions and any number of pairs; the only test of the repository with collisions (tests/RobotProblem.cpp) has two pairs and looks at the value of the first one along one motion", "anchors": ["src/robot/CollisionFunction.cpp", "include/tvm/robot/CollisionFunction.h"]}
{"id": "C62", "title": "Variables and caches of functions", "statement": "After any sequence of addVariable, removeVariable, resize and writes by a derived class, a function has exactly the declared variables, one Jacobian and one JDot matrix per variable with the size of the image and of the tangent space of the variable, vectors with the size of the image, and it retains the derivatives of its variables; linearIn gives the linearity a variable was declared with; splitJacobian writes the columns of each variable and nothing else.", "quantifier": "all call sequences, all variables (with sub-variables and several objects for the same part), all sets of enabled outputs", "why_tests_cant": "histories of additions, removals and changes of size are unbounded, and the functions of the tests add their variables once, in the constructor", "anchors": ["src/internal/FirstOrderProvider.cpp", "include/tvm/internal/FirstOrderProvider.h", "src/function/Function.cpp"]}
{"id": "C63", "title": "Robot: limits, motion with the clock, outputs", "statement": "The bounds of each joint coordinate are the given limits, or plus or minus big_number, at the rank of the coordinate in q, its velocity or the torques; at each update the robot integrates the accelerations over the time that passed and its variables are then those of its configuration; an output is up to date with everything its documentation says; the normal accelerations meet the recurrence along the kinematic tree.", "quantifier": "all kinematic trees, tables of limits, initial configurations, sequences of ticks, updates and settings of the variables, integration functions that keep the sizes", "why_tests_cant": "the tests use a few robots whose joints have one parameter per degree of freedom, one update per tick, and no limit on velocities", "anchors": ["src/Robot.cpp", "include/tvm/Robot.h", "src/Clock.cpp"]}
{"id": "C64", "title": "GenericCalculator keeps the contract of substitution calculators", "statement": "After an update that returns, the generic calculator multiplies by a generalized inverse of the current matrix A of the substituted variables and by bases of the null spaces of A and of its transpose; the update throws exactly when the declared rank is not the rank of A; the elimination of C33 and C54 then holds with these calculators.", "quantifier": "all matrices (any sizes and rank, with any exact rank-revealing decomposition), all inputs of the products, all sequences of updates, constant or not", "why_tests_cant": "matrices and histories are infinite; tests draw random matrices of a few sizes and update each calculator once", "anchors": ["src/hint/GenericCalculator.cpp", "include/tvm/hint/internal/GenericCalculator.h", "src/hint/SubstitutionCalculatorImpl.cpp"]}
{"id": "C65", "title": "A substitution works on the matrix of its variables in its constraints", "statement": "Building a substitution throws exactly when its constraints cannot determine its variables (not equalities, intersecting variables, a variable or a constraint not concerned, too many equations); each update of its calculator works on the current matrix of the substituted variables, possibly parts of larger ones, in the stacked constraints; the calculator chosen automatically keeps the contract of calculators.", "quantifier": "all constraints, variables and sub-variables, ranks and calculators; all sequences of updates with changing jacobians", "why_tests_cant": "layouts of sub-variables, constraints and sequences of jacobians are unbounded; tests build a few substitutions", "anchors": ["src/hint/Substitution.cpp", "src/hint/SubstitutionCalculatorImpl.cpp", "src/hint/AutoCalculator.cpp", "src/constraint/BasicLinearConstraint.cpp"]}
{"id": "C66", "title": "A written relation constrains the points to those where it holds", "statement": "For a relation written between a linear function, a variable or an affine expression and doubles or vectors (subject first or last, chained or not) and added with no dynamics, a point satisfies the constraint exactly when the relation as written holds there for each row, also after the matrices or the constant of the function are changed. A vector of a wrong size and variables in non-Euclidean spaces are refused with an exception, and the relations without a meaning do not compile.", "quantifier": "all expressions, variables and sub-variables, comparison operators, right-hand sides and points; all later changes of the function", "why_tests_cant": "tests check the type and the function of a few tasks; the meaning is over all points and expressions, and depends on which of two swapped sides each overload keeps", "anchors": ["include/tvm/utils/ProtoTask.h", "include/tvm/utils/internal/ProtoTaskDetails.h", "include/tvm/utils/AffineExpr.h", "src/Task.cpp", "src/task_dynamics/None.cpp", "src/constraint/internal/LinearizedTaskConstraint.cpp"]}
{"id": "C67", "title": "The checks of a function reject wrong derivatives and accept right ones", "statement": "At each point tested (random or from a configuration), checkJacobian, checkVelocity, checkNormalAcceleration and checkFunction return false when a column of the jacobian, the velocity or the normal acceleration is not, up to the precision and the step, the derivative it should be, and true when they all are; all the usable points requested are tested; missing outputs and non-Euclidean variables throw.", "quantifier": "all functions, numbers and sizes of variables, points, steps, precisions, configurations and random draws", "why_tests_cant": "the tests check one correct function and one function with all its columns wrong, at one random point", "anchors": ["include/tvm/utils/checkFunction.h", "src/utils/checkFunction.cpp"]}
{"id": "C68", "title": "What a node declares is what its maps, the call graph and the logger hold", "statement": "After any sequence of registerUpdates, addOutputDependency, addInternalDependency, addInputDependency, addDirectDependency and addInput calls made by a node, including calls that throw and are caught, the node holds exactly the update functions, output, internal, input and direct dependencies declared by the calls that took effect; no output both forwards an input and depends on updates; every input an update depends on is an enabled output of its source and an input of the node; the logger was told exactly these declarations in order; each call throws exactly when it names something disabled, registered twice or in conflict, and then has no effect beyond that of the arguments before the offending one; executing the plan of a call graph over such nodes runs the registered functions of the needed updates.", "quantifier": "all sequences of declarations of any length with any ids, sources, enabled updates and outputs, and any caught exceptions; all networks of such nodes and call graph histories", "why_tests_cant": "the tests declare a few fixed nodes and check a few exceptions; the interleavings of declarations, exceptions and variadic forms are unbounded", "anchors": ["include/tvm/graph/abstract/Node.hpp:36-269", "include/tvm/graph/internal/AbstractNode.h:104-123", "include/tvm/graph/internal/Inputs.hpp:46-82"]}
{"id": "C69", "title": "Log::subGraph lists exactly what the outputs of a call graph use", "statement": "Whatever was logged, Log::subGraph ends. For an output, or for the inputs of the objects added to a call graph, it lists once each exactly the outputs and updates they use, directly or through other updates and outputs, and each update with its function; it throws exactly if something used refers to an update or input that was not logged. When nodes declared themselves to an enabled logger, the updates listed for a call graph are exactly those its plan calls.", "quantifier": "all logs, with any cycles and repeated or missing entries; all networks of nodes with any histories of declarations, and all histories of the call graph", "why_tests_cant": "no test looks at the result of Log::subGraph; the dependency structures, including cyclic and incomplete ones, are unbounded", "anchors": ["src/graph/Log.cpp:267-308", "src/graph/Log.cpp:608-677", "include/tvm/graph/internal/Logger.h:83-156", "src/graph/Logger.cpp:22-32"]}
{"id": "C70", "title": "GraphProbe shows exactly the computations behind outputs that pass a test", "statement": "Whatever was logged, cyclic or not, GraphProbe::followUp ends. The tree it builds from an output has exactly the outputs and updates reached from it through outputs with a value passing the test; each of those that passes, and each update, is expanded exactly once, its children being all it directly uses in the order of the log, and every update carries its function. It throws exactly if one that is expanded refers to an update or input that was not logged. For a call graph there is one such tree for each of its outputs passing the test. listOutputVal lists exactly the values, for registered accessors, of the outputs used directly or not.", "quantifier": "all logs with any cycles and missing entries, all outputs and graphs, all accessors, values and tests", "why_tests_cant": "the only test follows one small problem and looks at the size and name of the first node; cyclic logs, shared sub-trees and missing entries are not exercised", "anchors": ["src/diagnostic/GraphProbe.cpp:44-153", "src/diagnostic/GraphProbe.cpp:166-294"]}
{"id": "C71", "title": "The requirements of a task are those last given, and schemes follow their changes", "statement": "SolvingRequirements can be built from priority, weight, anisotropic weight and violation evaluation in any order, each at most once, with the documented defaults for the others; a task gets exactly the requirements it is added with; priorities and weights are never negative; after any changes the requirements of a task are the last ones given, isDefault tells whether a requirement has its default value, and each resolution scheme of a problem that contains the task is told of the changes.", "quantifier": "all lists of arguments, all values, all histories of changes of requirements interleaved with the calls on a problem and the resolutions", "why_tests_cant": "the tests build a few argument lists and change weights by assigning numbers; they do not assign requirement objects, negative values or priorities after the construction", "anchors": ["include/tvm/requirements/SolvingRequirements.h", "include/tvm/requirements/abstract/SingleSolvingRequirement.h", "include/tvm/requirements/Weight.h", "src/ControlProblem.cpp: addCallBackToTask"]}
{"id": "C72", "title": "With substitutions the solver works on the variables that are left, all of them and only them", "statement": "When substitutions replace variables, or parts of variables, of a problem, the schemes give the solver exactly the elements of the variables of the tasks that are not replaced and the variables of the substitutions that are met; every constraint is rewritten with its replaced elements going through their substitution and the others untouched; a constraint is treated as a bound only when its variable is not replaced; canBeUsedAsBound follows its table of conventions; an arrangement that cannot be handled gives an exception.", "quantifier": "all lists of substitutions on disjoint variables and parts of variables, all lists of constraints on any variables and parts of variables, all target conventions", "why_tests_cant": "the tests use one substituted part of a variable and no scheme with it, and never call isBound or canBeUsedAsBound; the property ranges over all arrangements of the parts of variables", "anchors": ["src/hint/Substitutions.cpp: substitute", "src/scheme/helpers.cpp: isBound, canBeUsedAsBound", "src/scheme/WeightedLeastSquares.cpp: processProblem", "src/scheme/Assignment.cpp: addAssignments"]}
{"id": "C73", "title": "Wrappers of compiled assignments are values which own their assignment", "statement": "Whatever sequence of constructions, copies, moves, assignments, re-targetings, changes of source and destructions a program makes, a CompiledAssignmentWrapper that holds an assignment behaves as a value: a copy runs the assignment copied, whatever happens to the original; every allocation is owned by one wrapper, is accessed and deleted with its own type, once, and none is left when all wrappers are destroyed; from() throws exactly for the wrong kind of source, and a call that throws, also for lack of memory, changes nothing. The calls that are undefined are exactly those on destroyed wrappers and the copy, run, re-targeting or change of source of wrappers that hold nothing.", "quantifier": "all sequences of calls on all wrappers, all assignment types, all outcomes of the allocations", "why_tests_cant": "the test builds four wrappers, re-targets one and assigns once to a default-constructed wrapper by move; ownership, types behind void pointers and independence of copies have to hold after all histories", "anchors": ["include/tvm/scheme/internal/CompiledAssignmentWrapper.h: make, copy constructor, operator=, run, from, to"]}
{"id": "C74", "title": "Solving keeps the permission to allocate, and every scheme works on its own data", "statement": "Solving a problem leaves the permission to allocate memory in Eigen objects (is_malloc_allowed) as the program set it, whatever the sequence of resolutions, changes of problems, overrides and restores, and whether the resolution returns or throws; solve_ always receives the data created once by the same scheme for the same problem, and a resolution performs its stages in the documented order.", "quantifier": "all programs calling solve, set, override and restore, all problems and schemes, all codes of the stages and all their exceptions", "why_tests_cant": "the tests switch the flag off around resolutions to catch allocations, and never read it back; the effect depends on the history of resolutions and exceptions of the whole program", "anchors": ["include/tvm/scheme/abstract/ResolutionScheme.h: solve, createComputationData, updateComputationData", "include/tvm/utils/memoryChecks.h", "src/utils/memoryChecks.cpp", "include/tvm/scheme/internal/helpers.hpp: getComputationData"]}
{"id": "C75", "title": "Drawings of the log show every declaration once and highlight what a call graph uses", "statement": "Log::generateDot returns for every log of nodes whose declarations returned. The drawing has one cluster per logged object, one node per output and per update, one arrow per declared dependency, from what is used to what uses it; the drawing of one object shows exactly its inputs, updates, outputs and dependencies. In the drawing of a call graph a node is orange if and only if the graph uses it, directly or not, and an arrow if and only if both its ends are used. Different nodes have different names, and an object is named by its actual type.", "quantifier": "all sequences of calls of the logger, all types, names and addresses, all highlighted lists, all call graphs", "why_tests_cant": "no test of the suite draws a log (the calls in tests/main.cpp are commented out); names depend on addresses, colours on the reuse of addresses and on everything that was logged before", "anchors": ["src/graph/Log.cpp: generateDot, nodeName, getPromotedType, clean", "include/tvm/graph/internal/Log.h", "include/tvm/graph/internal/Logger.h: registerType"]}
{"id": "C76", "title": "isInMatrix answers exactly whether an address is the one of a coefficient", "statement": "isInMatrix(ptr, M) returns for every matrix or map, whatever its sizes and strides, and true only for the addresses of coefficients of M. It is true for all of them exactly if the columns of M are one after the other. For a coefficient of A and a block of A (or a map that takes one row in r and one column in c) it tells whether the coefficient is in the chosen rows and columns. hasElemAbsInRange tells whether some coefficient has its absolute value in the range; a NaN never has.", "quantifier": "all addresses, sizes, strides, blocks, blocks of blocks and strided maps; all values with infinities and NaN", "why_tests_cant": "the test takes two blocks, one map and an unrelated matrix with fixed sizes, all with columns one after the other; hasElemAbsInRange is not tested", "anchors": ["include/tvm/diagnostic/matrix.h"]}
{"id": "C77", "title": "The value of an orientation function is the rotation from its target, and its Jacobian is its derivative", "statement": "After any calls of the constructor, reset, orientation(E) and of updates, the value of an OrientationFunction is a vector of length at most pi around which, and by the length of which, the target must be turned to have the orientation of the frame; it is null if and only if the orientation is the target. The Jacobian times the velocity of the joints, and the velocity, are the derivative of the value.", "quantifier": "all frames on all bodies, all sequences of calls and targets, all motions, every function that computes a rotation vector (axis times angle)", "why_tests_cant": "the tests use the function in problems that converge to a target, where the error in the Jacobian vanishes; the derivative, the values far from the target and the jump at half a turn need all orientations", "anchors": ["src/robot/OrientationFunction.cpp", "include/tvm/robot/OrientationFunction.h", "src/robot/Frame.cpp"]}
{"id": "C78", "title": "Executing the graph of generateUpdateGraph makes the outputs asked for up to date", "statement": "generateUpdateGraph(obj1, o11, ..., obj2, o21, ...) throws if and only if one of the outputs is disabled; otherwise executing the graph calls each update that these outputs need exactly once and after those it depends on, calls no other update, and leaves every result needed up to date, whatever the memory before. The graph keeps alive the objects of which an output is asked for.", "quantifier": "all lists of objects and outputs (with repetitions, objects without outputs), all networks with forwarding that ends and finitely many updates needed, all orders of the hash map, all updates and memories", "why_tests_cant": "one network with one list of arguments is tested (UtilsTest.cpp), by comparing values before and after; what is up to date for all networks, memories and lists is not", "anchors": ["include/tvm/utils/graph.h", "include/tvm/utils/internal/graphDetails.h", "src/graph/CallGraph.cpp"]}
{"id": "C79", "title": "Convex hulls stay attached to their frames", "statement": "The constructor of ConvexHull and the update of its position place its sch object so that each point of the object has, in the frame at that time, the coordinates given through X_f_o, and keep the distances between its points; once the frames have moved and all hulls are updated, every hull is attached to its frame as it is now.", "quantifier": "all sequences of constructions, motions of the frames and updates, all positions of the frames and of the objects, all points", "why_tests_cant": "the only test (RobotProblem.cpp) attaches hulls to the bodies of one robot and uses the distance; the convention of the transposed rotation, the sharing of objects and all positions are not exercised", "anchors": ["src/robot/ConvexHull.cpp", "src/utils/sch.cpp"]}
{"id": "C80", "title": "A task with the dynamics Reference follows its reference", "statement": "With task_dynamics::Reference of order one or two, the constraint made from a task holds exactly when the derivative of the task function is in the relation of the task with the value of the reference function; kept satisfied over time by an equality task at order one with a linear function, the function moves by the sum of the reference. References that cannot be followed (null, or of another size than the function) are refused.", "quantifier": "all functions, relations, right-hand sides, references, states of the variables, and all sequences of instants", "why_tests_cant": "the test (TaskDynamicsTest.cpp, Test Reference) compares the value of the dynamics with the one of one reference of the right size; the constraint, double-sided tasks, null references and references of another size are not exercised", "anchors": ["src/task_dynamics/Reference.cpp", "src/task_dynamics/abstract/TaskDynamicsImpl.cpp", "src/constraint/LinearizedTaskConstraint.cpp"]}
{"id": "C81", "title": "A BufferedMatrix is a matrix, with few allocations", "statement": "After any sequence of resizes, assignments and writings, get() gives a matrix of the last size asked for, in which every coefficient can be written, the coefficients written since the last change of size are read back, and nothing outside of the buffer is touched. Memory is allocated only when the buffer is too small: at most log2 of twice the largest size asked for times, and never when no more is asked for than before. Maps made earlier stay usable exactly as long as nothing was allocated.", "quantifier": "all sizes, all histories of calls, all indexes", "why_tests_cant": "there is no test of BufferedMatrix; a count of allocations over all histories and the lifetime of maps cannot be settled by examples", "anchors": ["include/tvm/utils/internal/BufferedMatrix.h", "src/hint/GenericCalculator.cpp"]}
{"id": "C82", "title": "A problem uses the big number of its own scheme", "statement": "The constraints of a problem given to a solver with two sides use, for the missing side of one-sided constraints and bounds, the big number of the scheme the problem is solved with, whatever other schemes and problems there are; values below this number are then never refused.", "quantifier": "all schemes, numbers, problems, and all histories of constructions, changes of the number, first solves, rebuilds and additions of tasks", "why_tests_cant": "the number is a static member shared by all schemes; no test sets the number of a scheme, and the interleavings of several schemes are not exercised", "anchors": ["src/scheme/ResolutionScheme.cpp", "src/scheme/Assignment.cpp", "src/scheme/WeightedLeastSquares.cpp", "src/scheme/HierarchicalLeastSquares.cpp"]}
{"id": "C83", "title": "A robot loaded from a file starts in the configuration asked for", "statement": "A robot made by fromURDF starts, joint by joint, in the configuration given for the joint's name, and in the configuration of the file for the joints not given; the position variable holds these numbers joint after joint; entries that cannot be used are reported; without the file no robot is made.", "quantifier": "all robots, configurations of the file, maps of joint names to values of any length", "why_tests_cant": "fromURDF is only called by two examples on one robot, with names and sizes that fit; no test looks at the resulting configuration", "anchors": ["src/robot/utils.cpp", "include/tvm/robot/utils.h", "src/Robot.cpp"]}
{"id": "C84", "title": "The hierarchical scheme solves the current problem", "statement": "Whenever HierarchicalLeastSquares::solve returns for a problem whose tasks, weights and substitutions changed since the previous resolutions, it solved the current problem: the tasks present now, with their present constraints and weights, and the present substitutions.", "quantifier": "all problems, all histories of additions and removals of tasks and substitutions, changes of weights and resolutions by any number of hierarchical schemes, including calls made after an exception was caught", "why_tests_cant": "the tests solve fixed problems with this scheme; the outcome depends on the interleaving of changes, resolutions and exceptions", "anchors": ["src/scheme/HierarchicalLeastSquares.cpp", "src/solver/HierarchicalLeastSquareSolver.cpp", "include/tvm/scheme/abstract/ResolutionScheme.h", "include/tvm/scheme/internal/ProblemComputationData.h"]}
{"id": "C85", "title": "LexLS is given the current dimensions and starts from the previous resolution", "statement": "At each solve of a LexLSLeastSquareSolver, whatever builds, changes and resolutions were made before, the LexLS library is set up for the current numbers of variables, constraints and objectives with data of these dimensions; without warmStart it is given nothing of the previous resolutions, with it, and as long as the sizes are the same, the previous solution and the constraints active at one of their bounds, which all exist.", "quantifier": "all sequences of builds, changes and resolutions, all sizes, all answers of the library", "why_tests_cant": "no test sets warmStart, and the dimensions are only passed on when the number of coefficients of a matrix changes, so that it takes particular successions of sizes to go wrong", "anchors": ["src/solver/LexLSLeastSquareSolver.cpp: resize_, postAssignmentProcess_, solve_", "src/solver/LeastSquareSolver.cpp: process, solve", "include/tvm/solver/abstract/LeastSquareSolver.h: willReallocate"]}
{"id": "C86", "title": "The options of a solver are those last given, and they all reach it", "statement": "For each of the classes of solver options, an option reads as the value last given to it, or else as its default value. A solver can be made from any such object without exception; it uses the values of its own options, and every other option chosen by the user or by the class is set, under the same name, in each object of the underlying library, and nothing else is. A scheme keeps the options as they were when it was made. The default solver is the first available one, with the two options of its class.", "quantifier": "all sequences of calls of setters, all options of the five solvers, all initial parameters of the libraries, all combinations of available solvers", "why_tests_cant": "the tests only give verbose, cholesky and feasibleFirstLevel, and the parameters of the libraries cannot be observed through TVM", "anchors": ["include/tvm/solver/internal/Option.h", "src/solver/LSSOLLeastSquareSolver.cpp: constructor", "src/solver/LexLSLeastSquareSolver.cpp: constructor", "src/solver/defaultLeastSquareSolver.cpp: createSolver"]}
{"id": "C87", "title": "The properties attached to a jacobian, and to a slice of it, stay true", "statement": "The jacobian with respect to a part of a variable, read from a constant object, is made of the columns asked for; all that its properties say is true of it when it is so for the whole jacobian, and it is said to be zero or constant exactly when the whole is. Assigning, adding or subtracting, on the whole or through a slice, changes the columns referred to and nothing else, is defined exactly when the sizes fit, and resets the properties of the whole unless they are explicitly kept or given; so properties stay true through any sequence of operations in which those declared are properties of the whole. Adding a term to a linear function leaves a jacobian said to be constant and nothing more. A slice which can be written to, however, reports the properties of the whole, and a property declared for it is declared for the whole.", "quantifier": "all matrices over any ordered field, all ranges of columns, all properties which can be built, all sequences of operations", "why_tests_cant": "the tests check a few shapes after a few operations; that a declared property is true of a matrix is a statement about all its entries, and the slice which can be written to is not visible to them", "anchors": ["include/tvm/internal/MatrixWithProperties.h", "include/tvm/internal/FirstOrderProvider.h: slice_matrix", "include/tvm/function/BasicLinearFunction.h: add"]}
{"id": "C88", "title": "The warm start of the hierarchical solver only uses the last resolution since the last build", "statement": "With warm start, the hierarchical solver on LexLS tells the library to activate exactly the constraints which the library reported active on a bound at the last resolution since the last build, in that order, and to start from the last result; at the first resolution after a build, none, and zero. Without warm start nothing is told. The answers of the library have no other effect on what it is given later. If the library only reports constraints it was set up for, it is never told to activate another one, whatever the builds in between. A resolution succeeds exactly if the library says it solved the problem, and solving before any build is undefined.", "quantifier": "all sequences of builds and resolutions, all answers of the library", "why_tests_cant": "no test uses warmStart, and what the library is told cannot be observed through TVM", "anchors": ["src/solver/LexLSHierarchicalLeastSquareSolver.cpp: resize_, postAssignmentProcess_, solve_", "src/solver/HierarchicalLeastSquareSolver.cpp: startBuild, solve"]}
