{
 "claims": [
  {
   "property": "C01",
   "status": "proved",
   "theorems": [
    "C01_ranges_maximal_intervals",
    "C01_canonical_unique"
   ],
   "note": "all histories of add/remove/ranges/maxCount"
  },
  {
   "property": "C02",
   "status": "proved",
   "theorems": [
    "C02_add_flag",
    "C02_remove_flag",
    "C02_split_always_changes_refuted"
   ],
   "note": "the header's additional claim about ranges(true) is refuted"
  },
  {
   "property": "C03",
   "status": "proved",
   "theorems": [
    "C03_remove_rejects"
   ],
   "note": ""
  },
  {
   "property": "C04",
   "status": "proved",
   "theorems": [
    "C04_split_pieces",
    "C04_cache_never_stale"
   ],
   "note": ""
  },
  {
   "property": "C05",
   "status": "proved",
   "theorems": [
    "C05_maxCount"
   ],
   "note": ""
  },
  {
   "property": "C06",
   "status": "proved",
   "theorems": [
    "C06_contains_int",
    "C06_contains_range",
    "C06_intersects",
    "C06_relativeRange",
    "C06_equality",
    "C06_intersects_empty_refuted",
    "C06_empty_not_in_itself_refuted"
   ],
   "note": "intersects with an empty range is refuted"
  },
  {
   "property": "C07",
   "status": "proved",
   "theorems": [
    "C07_calls_defined",
    "C07_dot_defined",
    "C07_chain",
    "C07_contains",
    "C07_intersects",
    "C07_equality",
    "C07_dot_sub_commute",
    "C07_tangent_range",
    "C07_set",
    "C07_set_size",
    "C07_set_zero",
    "C07_set_segment",
    "C07_set_index",
    "C07_value_cells",
    "C07_sub_keeps_values",
    "C07_sub_of_derivative_keeps_values_refuted",
    "C07_automatic_name_refuted"
   ],
   "note": "Sub-claims refuted: sub-variable of a derivative erases the slice's values; automatic name of a nested sub-variable."
  },
  {
   "property": "C08",
   "status": "proved",
   "theorems": [
    "C08_sizes",
    "C08_product_total",
    "C08_product",
    "C08_product_assoc",
    "C08_product_unit",
    "C08_order",
    "C08_equality",
    "C08_unit_type_refuted",
    "C08_default_size_refuted",
    "C08_group_sizes",
    "C08_accepted"
   ],
   "note": "Two sub-claims are refuted: the unit changes the type of SO3/SE3, and the default size of Space(Type::Euclidean) is -1."
  },
  {
   "property": "C09",
   "status": "proved",
   "theorems": [
    "C09_calls_defined",
    "C09_disjoint_total",
    "C09_add",
    "C09_add_list",
    "C09_add_vector",
    "C09_addAndGetIndex",
    "C09_remove",
    "C09_remove_index",
    "C09_clear",
    "C09_contains",
    "C09_intersects",
    "C09_indexOf",
    "C09_copy",
    "C09_assign",
    "C09_move",
    "C09_set_value",
    "C09_self_assign_keeps_refuted",
    "C09_zero_size_duplicates_refuted"
   ],
   "note": "Non-empty variables, as stated. Refuted outside the statement: copy self-assignment empties the vector; zero-size variables are duplicated."
  },
  {
   "property": "C10",
   "status": "proved",
   "theorems": [
    "C10_mapping",
    "C10_mapping_of",
    "C10_query_pure",
    "C10_moved_from_reuse_refuted",
    "C10_moved_from_shared_id_refuted"
   ],
   "note": "For histories that do not reuse a moved-from vector (only destruction or move-assignment to it) and without self-move; reuse of moved-from vectors is refuted."
  },
  {
   "property": "C11",
   "status": "proved",
   "theorems": [
    "C11_variables",
    "C11_add_flag",
    "C11_remove_flag",
    "C11_disjoint",
    "C11_split_first_call",
    "C11_split_refines_adds",
    "C11_simple_adds",
    "C11_split_pieces_refuted",
    "C11_simple_exact_refuted",
    "C11_simple_conservative_refuted",
    "C11_aligned_needed_refuted"
   ],
   "note": "Variables made of aligned atoms (Euclidean, or SO3-like blocks). Documented claims on split after a cached call, and on simple(), are false: see the _refuted theorems."
  },
  {
   "property": "C12",
   "status": "proved",
   "theorems": [
    "C12_traversal",
    "C12_after_adds",
    "C12_empty_container_refuted",
    "C12_empty_variable_refuted"
   ],
   "note": "Empty container is undefined behaviour, and a zero-size variable is rejected (refuted theorems)."
  },
  {
   "property": "C13",
   "status": "proved",
   "theorems": [
    "C13_acyclic",
    "C13_general",
    "C13_throws",
    "C13_cycle_rejected_refuted"
   ],
   "note": "order() on an acyclic graph is a complete topological order; in general it lists exactly what the roots reach; exact condition of the exception. The claim that every cyclic graph is rejected is refuted: a cycle no root leads to is silently dropped when another root exists."
  },
  {
   "property": "C14",
   "status": "proved",
   "theorems": [
    "C14_grouped"
   ],
   "note": "Groups are the connected components, each ordered dependencies first."
  },
  {
   "property": "C15",
   "status": "proved",
   "theorems": [
    "C15_reduce",
    "C15_reduced_acyclic"
   ],
   "note": "Tarjan's algorithm as written; components are the classes of mutual reachability; quotient graph exact and acyclic."
  },
  {
   "property": "C16",
   "status": "proved",
   "theorems": [
    "C16_equivalence",
    "C16_compression"
   ],
   "note": "Union-find with path compression and union by rank."
  },
  {
   "property": "C17",
   "status": "proved",
   "theorems": [
    "C17_edges_exact",
    "C17_remove",
    "C17_ids_needed",
    "C17_addEdge_flag"
   ],
   "note": "Any history of addNode/addEdge/removeNode/clear keeps edges, children and root flags consistent; ids out of range are undefined behaviour."
  },
  {
   "property": "C18",
   "status": "proved",
   "theorems": [
    "C18_plan",
    "C18_general",
    "C18_needed_or_throw_refuted",
    "C18_forwarding_needed_refuted"
   ],
   "note": "All networks, all histories of add/clear. Two side claims are refuted: a cycle of updates no other update leads to is silently left out of the plan; circular output forwarding makes add() recurse forever."
  },
  {
   "property": "C19",
   "status": "partial",
   "theorems": [
    "C19_neg",
    "C19_add",
    "C19_sub",
    "C19_mul",
    "C19_scale_partial",
    "C19_scale_refuted"
   ],
   "note": "Matrices of any size over any ordered field, varying over any state space. Missing: scaling +-I by a factor other than 0, 1, -1, where the statement is false (C19_scale_refuted: 2*I is declared IDENTITY)."
  },
  {
   "property": "C20",
   "status": "partial",
   "theorems": [
    "C20_neg",
    "C20_scale",
    "C20_add",
    "C20_sub",
    "C20_mul",
    "C20_never_throws_refuted"
   ],
   "note": "Exact conditions of the exceptions. The claim is true of the negation; it is false of the other operators (I+I, I+0, PD+PSD, 0*varying, ZERO*varying throw)."
  },
  {
   "property": "C21",
   "status": "proved",
   "theorems": [
    "C21_implied",
    "C21_rejected",
    "C21_accepted",
    "C21_outcomes"
   ],
   "note": "A positiveness declared of a triangular matrix is read for square matrices (the code then makes it DIAGONAL)."
  },
  {
   "property": "C22",
   "status": "partial",
   "theorems": [
    "C22_feasible",
    "C22_accepts",
    "C22_frame",
    "C22_opposite_refuted",
    "C25_free_side",
    "C25_opposite_none"
   ],
   "note": "All sizes, types and conventions, after any earlier runs. A single-sided constraint in an OPPOSITE double-sided target is wrong in the code (refuted with a witness); the theorem covers every other convention. +-big stands for infinity in double-sided targets. Doubles are rationals."
  },
  {
   "property": "C23",
   "status": "partial",
   "theorems": [
    "C23_constructed",
    "C23_history_partial",
    "C23_stale_refuted"
   ],
   "note": "Proved after construction and after every history of updates and runs, except updates of the scalar weight alone under an anisotropic weight, for which the code is wrong (refuted with a witness)."
  },
  {
   "property": "C24",
   "status": "partial",
   "theorems": [
    "C24_box_partial",
    "C24_first_partial",
    "C24_no_bound",
    "C24_unordered_refuted",
    "C24_reach_refuted",
    "C24_lost_refuted",
    "C24_single_target_refuted"
   ],
   "note": "The box of the solver is the intersection, for x, -x and D x; false for l > u with D diagonal, for points beyond |d|*big, and for single-sided bound targets (each refuted with a witness)."
  },
  {
   "property": "C25",
   "status": "partial",
   "theorems": [
    "C25_feasible",
    "C25_free_side",
    "C25_opposite_none",
    "C25_opposite_refuted",
    "C22_accepts"
   ],
   "note": "For atomic variables and resolved substitutions of any dimension; single-sided constraints in double-sided targets exactly characterised (C25_free_side): in an OPPOSITE target no point with a value within +-big satisfies the rows (refuted)."
  },
  {
   "property": "C26",
   "status": "partial",
   "theorems": [
    "C26_rows_fill_partial",
    "C26_matrix_rows",
    "C26_min_norm_refuted"
   ],
   "note": "Proved for every history of builds with an actual objective and of event batches, for the four solver interfaces. False after a minimum-norm build: objectives added incrementally leave the rows of the minimum norm without range (C26_min_norm_refuted)."
  },
  {
   "property": "C27",
   "status": "partial",
   "theorems": [
    "C27_problem_partial",
    "C27_rebuild_partial",
    "C27_process_ok_partial",
    "C27_build_ok",
    "C27_same_product_refuted",
    "C27_diagonal_bound_refuted",
    "C26_min_norm_refuted"
   ],
   "note": "Proved for every history in which the shape of the constraint matrix never changes with its number of coefficients kept (same_product), whose last build is not a minimum-norm one and without diagonal (other than +-I) bounds. Each of the three restrictions is necessary: refutations with witnesses."
  },
  {
   "property": "C28",
   "status": "proved",
   "theorems": [
    "C28_net_effect",
    "C28_queue_short",
    "C28_addresses_needed_refuted",
    "C28_added_twice_refuted"
   ],
   "note": "Net effect of the queue (tasks, weight changes, removals, substitution events) equals that of the calls, for all valid histories; the queue is itself a valid history. Side findings: substitution events are lost if a task is allocated at the (stored, possibly dangling) address of a substitution and removed; adding a task twice then removing it violates the assertion."
  },
  {
   "property": "C29",
   "status": "proved",
   "theorems": [
    "C29_net_change",
    "C29_objectives_partial",
    "C29_objective_data_refuted",
    "C29_variable_change_signalled",
    "C29_weight_events"
   ],
   "note": "All valid sequences of calls. Side claim refuted: an objective removed then added again with other requirements or weight keeps the old ones (not reachable through WeightedLeastSquares, which creates a new constraint)."
  },
  {
   "property": "C30",
   "status": "partial",
   "theorems": [
    "C30_mirror_partial",
    "C30_solve_throws_only_if_partial",
    "C30_calls_return_partial",
    "C30_exception_loses_task_refuted",
    "C30_failed_addition_refuted",
    "C30_priority_change_refuted",
    "C30_priority_then_removal_refuted",
    "C30_weight_assignment_refuted",
    "C30_bound_reclassified_refuted",
    "C30_resync",
    "C30_failed_rebuild_refuted"
   ],
   "note": "Proved for every history of legal calls none of which threw: after a solve that returns, memory and solver mirror the problem. The full statement is false: after a solve that threw, a priority change, a weight assignment without callback, or a change in a bound's nature, the mirror is lost (seven refutations); after any calls, including those that threw, a change of substitution makes the scheme mirror the problem again (C30_resync)"
  },
  {
   "property": "C31",
   "status": "partial",
   "theorems": [
    "C31_accepts_partial",
    "C31_refusals",
    "C31_weighted",
    "C31_hierarchical",
    "C31_scalarised_refuted",
    "C31_zero_levels_refuted"
   ],
   "note": "Exact condition of acceptance and of each refusal for every table with at least one level. The clause on scalarised levels is false: the weighted scheme throws std::out_of_range for every priority >= 2."
  },
  {
   "property": "C32",
   "status": "partial",
   "theorems": [
    "C32_generalized_inverse",
    "C32_null_space",
    "C32_left_null_partial",
    "C32_left_null_condition",
    "C32_left_null_refuted",
    "C32_zero_row_out_of_bounds_refuted",
    "C32_updates"
   ],
   "note": "Generalized inverse and null space basis proved for every matrix of the declared structure. The basis of the null space of A^T is wrong when a row before a zero row is not selected (column position used as row index); proved under, and only under, that condition."
  },
  {
   "property": "C33",
   "status": "partial",
   "theorems": [
    "C33_equivalence_partial",
    "C33_eliminated",
    "C33_update_defined_partial",
    "C33_update_defined",
    "C33_more_constraints",
    "C33_update_defined_iff",
    "C33_two_constraints_refuted",
    "C33_dependency_refuted",
    "C33_zero_flag_partial",
    "C33_zero_flag_refuted"
   ],
   "note": "The equivalence holds for every group, dimension, rank and dependency chain and after any number of updates, for calculators meeting their contract (C32), provided the update has no out-of-range access to the flags cIsZero_/uIsZero_. Two witnesses show such accesses (two constraints on one variable; dependency on a variable whose index is not below the number of substitutions) and one shows a wrong ZERO flag; positive theorems for one constraint and one variable per substitution. The updates are defined exactly when there are not more constraints than variables if no right-hand side is ZERO (C33_update_defined_iff), and under one more condition otherwise (C33_update_defined)."
  },
  {
   "property": "C34",
   "status": "proved",
   "theorems": [
    "C34_symmetric",
    "C34_effect",
    "C34_pair_throws",
    "C34_swap",
    "C34_self_move_refuted",
    "C34_self_pair_refuted",
    "C34_handle_refuted"
   ],
   "note": "every legal history of constructions, moves, assignments, destructions, pairings and handle uses; the refuted side-claims show that self-assignment loses the pair, that pairWith accepts a token with itself, and that a handle used after its token was paired or moved breaks the relation"
  },
  {
   "property": "C35",
   "status": "proved",
   "theorems": [
    "C35_history",
    "C35_run",
    "C35_run_spec",
    "C35_unregister_throws",
    "C35_late_handle_refuted",
    "C35_self_unregister_refuted"
   ],
   "note": "every history of registrations (with any reallocation of the vector), token moves, assignments, destructions, unregistrations and runs, where callbacks may themselves move and destroy tokens and unregister later callbacks; callbacks that register or run the same manager are not modelled; refuted side-claims: handle kept across another registration, callback unregistering itself"
  },
  {
   "property": "C36",
   "status": "proved",
   "theorems": [
    "C36_scaled",
    "C36_inside_unchanged",
    "C36_bounds",
    "C36_symmetric"
   ],
   "note": "Full statement for the Clamped decorator; doubles are rationals, no infinite bounds."
  },
  {
   "property": "C37",
   "status": "partial",
   "theorems": [
    "C37_constraint",
    "C37_safe_first_order_partial",
    "C37_safe_second_order_partial",
    "C37_safe_constant_acceleration_partial",
    "C37_jump_refuted",
    "C37_large_step_refuted",
    "C37_constant_acceleration_refuted"
   ],
   "note": "Safety is proved for all trajectories under an additional bound on the velocity outside of the interaction zone; without it, or with constant acceleration over the largest step, the statement is refuted. Outside of the zone the bound is the big number, so the constraint is restrictive only beyond it."
  },
  {
   "property": "C38",
   "status": "partial",
   "theorems": [
    "C38_constraint",
    "C38_continuous",
    "C38_non_negative_partial",
    "C38_negative_refuted",
    "C38_division_by_zero",
    "C38_division_refuted",
    "C38_safe"
   ],
   "note": "Continuity is proved with its exact condition; the damping can be negative when the function is moving away as the damper activates (refuted), and is undefined when it activates at the safety distance."
  },
  {
   "property": "C39",
   "status": "partial",
   "theorems": [
    "C39_proportional",
    "C39_proportional_derivative",
    "C39_forms_agree",
    "C39_critical_damping_partial",
    "C39_matrix_damping",
    "C39_matrix_critical_refuted",
    "C39_matrix_setter_keeps_stiffness",
    "C39_matrix_setter_refuted",
    "C39_setters_check",
    "C39_constructor",
    "C39_constructor_refuted",
    "C39_pd_constructor_refuted",
    "C39_feed_forward"
   ],
   "note": "The laws, the agreement of the three forms and the critical damping of scalar and diagonal gains are proved; for matrices the damping computed is 2 kp, the setter does not set kp, and the constructors accept ill-sized matrices (refuted). Uses the axioms of the standard library's real numbers."
  },
  {
   "property": "C40",
   "status": "proved",
   "theorems": [
    "C40_reaches",
    "C40_trajectory",
    "C40_parameters"
   ],
   "note": "Both orders; at order two the velocity keeps oscillating (part of C40_trajectory)."
  },
  {
   "property": "C41",
   "status": "partial",
   "theorems": [
    "C41_derive",
    "C41_constraint",
    "C41_double_sided",
    "C41_types",
    "C41_nonlinear",
    "C41_jacobian",
    "C41_none",
    "C41_constant_refuted",
    "C41_dropped_refuted"
   ],
   "note": "proved for all functions, orders and dynamics whose variables have non-overlapping derivatives; refuted: Constant dynamics ignores the constant part of the function; variables with disjoint values but overlapping derivatives are dropped"
  },
  {
   "property": "C42",
   "status": "proved",
   "theorems": [
    "C42_expression",
    "C42_matrices",
    "C42_matrices_throw",
    "C42_curved",
    "C42_setA",
    "C42_setB"
   ],
   "note": "BasicLinearFunction and affine expressions, doubles as rationals. The life time of the references kept by the expression templates, the uninitialised constructors (int, variables) and the pointer lookups are not modelled. The constructor from matrices refuses a variable that overlaps an earlier one without being inside it; the expression constructor accepts it."
  },
  {
   "property": "C43",
   "status": "partial",
   "theorems": [
    "C43_jacobian",
    "C43_jacobian_disjoint",
    "C43_subvariables_aligned",
    "C43_flat_aligned",
    "C43_unaligned_refuted",
    "C43_whole_refuted",
    "C43_JDot_partial",
    "C43_JDot_refuted"
   ],
   "note": "Proved for the jacobians, for all reachable variables and maps; for JDot only for variables whose values and derivatives have the same layout, as the ranges of the values are used (refuted otherwise). Sub-variables unaligned with the tangent space are refuted."
  },
  {
   "property": "C44",
   "status": "partial",
   "theorems": [
    "C44_unique",
    "C44_order",
    "C44_follow",
    "C44_never_reused",
    "C44_progress",
    "C44_no_overflow",
    "C44_overflow_refuted",
    "C44_moved_from_refuted",
    "C44_self_move_refuted",
    "C44_compare",
    "C44_compare_trans",
    "C44_compare_null_refuted",
    "C44_clock",
    "C44_clock_step",
    "C44_clock_wrap_refuted",
    "C44_follower",
    "C44_follower_late_refuted",
    "C44_follower_wrap_refuted"
   ],
   "note": "Ids: proved for every interleaving of constructors (steps of makeId under its mutex), moves and destructions; uniqueness, order, no reuse, progress. False at the limits, and refuted: the counter overflows at the 2^31st creation, objects moved from share -1, self-move loses the id, the clock wraps at 2^64, an update skipped loses ticks."
  },
  {
   "property": "C45",
   "status": "partial",
   "theorems": [
    "C45_history",
    "C45_throws",
    "C45_atomic_add_one",
    "C45_atomic_remove_one",
    "C45_atomic_remove_all",
    "C45_throw_add",
    "C45_throw_remove",
    "C45_add_atomic_refuted",
    "C45_remove_atomic_refuted"
   ],
   "note": "Contents and ownership proved for all histories; calls for one output and removeInput(source) are atomic. False and refuted: a call for several outputs that throws has already added or removed some; the exact effect is proved."
  },
  {
   "property": "C46",
   "status": "partial",
   "theorems": [
    "C46_enabled",
    "C46_enabled_any",
    "C46_request",
    "C46_locked",
    "C46_several",
    "C46_several_atomic_refuted",
    "C46_added_output_refuted",
    "C46_static_inherited_refuted"
   ],
   "note": "Proved for all construction and call histories when the last selector of the inheritance chain knows all the outputs (as in Provider5 and Provider6 of the tests, and Constraint). False and refuted otherwise: isOutputEnabled throws for outputs added by a class derived from a selector; calls for several outputs are not atomic; a class disabling outputs statically forgets those of its bases."
  },
  {
   "property": "C47",
   "status": "partial",
   "theorems": [
    "C47_order",
    "C47_dead",
    "C47_history",
    "C47_undefined",
    "C47_destroyed_refuted",
    "C47_destroy_while_refuted",
    "C47_regist_while_refuted",
    "C47_once_refuted"
   ],
   "note": "Order and completeness of delivery proved for arbitrary listeners, including those that notify, register or destroy in turn. Safety is false and refuted: a destroyed listener, or a registration during the notification, makes notify undefined; a listener registered twice is notified twice."
  },
  {
   "property": "C48",
   "status": "partial",
   "theorems": [
    "C48_first_build_partial",
    "C48_rebuild_offset",
    "C48_rebuild_iff",
    "C48_rebuild_refuted",
    "C48_fewer_levels_refuted",
    "C48_same_area_refuted",
    "C48_dangling_bounds_refuted",
    "C48_scheme",
    "C48_bounds_only_ub",
    "C48_bounds_only_refuted"
   ],
   "note": "True of the first build of every solver and of every build of the hierarchical scheme (which takes a new solver each time). False of later builds of the same solver: startBuild keeps the sizes of the previous build (rows start after those of the previous build; exact condition proved), the data of removed levels, and references to freed bounds. A problem with bounds only, without damping, writes out of bounds."
  },
  {
   "property": "C49",
   "status": "partial",
   "theorems": [
    "C49_active_partial",
    "C49_sort_exists",
    "C49_throws",
    "C49_inactive",
    "C49_free_flyer_twice_refuted",
    "C49_jdot_refuted"
   ],
   "note": "Proved for all multi-bodies and all lists of known names with the free-flyer at most once, for every outcome of the unstable sort, and for all lists of inactive names. False when the free-flyer is listed twice (out of range) and for JDot, whose inactive columns are never set. Unknown active names are left to RBDyn."
  },
  {
   "property": "C50",
   "status": "partial",
   "theorems": [
    "C50_velocity_at_own_position",
    "C50_value_exact",
    "C50_value_position",
    "C50_value_at_own_position_partial",
    "C50_reset_zero",
    "C50_value_refuted",
    "C50_spherical_refuted",
    "C50_first_joint_refuted"
   ],
   "note": "Velocity: full. Value: exact for all robots, at the joint's own position for robots whose joints (free-flyer excluded) have at most one degree of freedom; false with spherical/planar/cylindrical joints (witnesses), as is posture(j,q) for the first joint."
  },
  {
   "property": "C51",
   "status": "partial",
   "theorems": [
    "C51_value_at_given",
    "C51_value_rejects",
    "C51_velocity_at_given",
    "C51_velocity_rejects",
    "C51_disabled",
    "C51_construct",
    "C51_atomic_refuted",
    "C51_with_derivative_refuted",
    "C51_construct_refuted"
   ],
   "note": "Value and Jacobian calls: full, for all argument lists. Calls with velocities: full when no variable of the function is part of the derivative of another one; false otherwise (witness). Rejected calls keep earlier assignments and the constructor may reset velocities (witnesses)."
  },
  {
   "property": "C52",
   "status": "partial",
   "theorems": [
    "C52_membership",
    "C52_consistent",
    "C52_pending",
    "C52_weight_notified",
    "C52_who_throws",
    "C52_add_throws",
    "C52_remove_throws",
    "C52_remove_throws_state",
    "C52_remove_retry",
    "C52_add_atomic_refuted",
    "C52_remove_atomic_refuted",
    "C52_added_twice_refuted",
    "C52_added_twice_undefined_refuted",
    "C52_base_refuted",
    "C52_remove_substitution_refuted",
    "C52_two_substitutions_refuted"
   ],
   "note": "Membership holds for all histories, with exceptions. For histories without exception and without double addition, nothing is undefined, tasks, constraints, updater and callbacks agree, and pending notifications lead to the current tasks. Exceptions are characterised exactly. Refuted in general: add and remove are not atomic, double addition, use through ControlProblem, removal of a substitution by the user's object, constraint in two substitutions."
  },
  {
   "property": "C53",
   "status": "partial",
   "theorems": [
    "C53_feasible",
    "C53_cost",
    "C53_min_norm",
    "C53_solution",
    "C53_solvable",
    "C53_asserts",
    "C53_min_norm_cholesky_refuted",
    "C53_min_norm_assert_refuted",
    "C53_lexls_rebuild_refuted",
    "C53_regularized_refuted"
   ],
   "note": "Feasible set and cost proved for every history and option except the refuted cases: minimum norm with cholesky (QLD, Quadprog), asserts with minimum norm, LexLS rebuilt after minimum norm; the regularization is exact but moves the solution. QR decomposition and triangular inverse are taken as right."
  },
  {
   "property": "C54",
   "status": "partial",
   "theorems": [
    "C54_constructed",
    "C54_present",
    "C54_finalizes",
    "C54_variables",
    "C54_others",
    "C54_elimination_partial",
    "C54_values_partial",
    "C54_substitute",
    "C54_additional",
    "C54_additional_refuted",
    "C54_shared_variable_refuted",
    "C54_shared_constraint_refuted",
    "C54_atomic_refuted",
    "C54_group_rank_refuted",
    "C54_update_refuted"
   ],
   "note": "Membership, finalization of sets without common variable or constraint, variables, other variables, substitute and (first finalization) additional variables proved for every history; the equivalence and updateVariableValues for every finalized set whose updates are defined and whose calculators meet their contract. Refuted: common variables, common constraints, a second finalization (stale additional variables), atomicity of finalize, the rank of a group, definedness of the update."
  },
  {
   "property": "C55",
   "status": "partial",
   "theorems": [
    "C55_accepts",
    "C55_variables",
    "C55_sum_partial",
    "C55_history",
    "C55_value",
    "C55_curved_unusable",
    "C55_repeated_refuted",
    "C55_empty_refuted"
   ],
   "note": "The sum holds if no variable object is repeated (refuted otherwise); empty lists are undefined behaviour; an allocated constraint on a non-Euclidean variable is accepted but unusable."
  },
  {
   "property": "C56",
   "status": "proved",
   "theorems": [
    "C56_generators",
    "C56_sound",
    "C56_precise",
    "C56_opposite",
    "C56_direction_refuted",
    "C56_two_refuted"
   ],
   "note": "Axioms of the standard library's real numbers (A1-A4 in DESIGN.md). The direction alone does not reverse the cone (refuted side claim); the precision needs three generators."
  },
  {
   "property": "C57",
   "status": "partial",
   "theorems": [
    "C57_history",
    "C57_equation_partial",
    "C57_returns",
    "C57_friction",
    "C57_force_linear_partial",
    "C57_force_second_partial",
    "C57_force_first_refuted",
    "C57_force_index_refuted",
    "C57_force_none",
    "C57_remove_refuted",
    "C57_stale_refuted",
    "C57_removed_first_refuted",
    "C57_self_contact_refuted",
    "C57_force_rotation_refuted",
    "C57_friction_refuted"
   ],
   "note": "Full statement false after removeContact (C57_remove_refuted, C57_stale_refuted, C57_removed_first_refuted, C57_self_contact_refuted) and for contactForce in the cases of C57_force_first_refuted, C57_force_index_refuted, C57_force_rotation_refuted; C57_history gives the exact value for all call sequences, C57_equation_partial the equation of motion without removals. Missing: contactForce for rotated points in general."
  },
  {
   "property": "C58",
   "status": "partial",
   "theorems": [
    "C58_transformations",
    "C58_points",
    "C58_points_partial",
    "C58_points_refuted",
    "C58_equal",
    "C58_order_partial",
    "C58_apart_partial",
    "C58_ambiguity_refuted",
    "C58_order_refuted"
   ],
   "note": "Full statement false: C58_points_refuted, C58_order_refuted, C58_ambiguity_refuted. Proved: the transformations, the exact condition under which a point is the right one (C58_points), and the order on ids with the same ambiguity number or with distinct names for robots and frames."
  },
  {
   "property": "C59",
   "status": "partial",
   "theorems": [
    "C59_position",
    "C59_motion",
    "C59_velocity_partial",
    "C59_jacobian_partial",
    "C59_jacobian_exact",
    "C59_velocity_exact",
    "C59_position_value",
    "C59_position_velocity_partial",
    "C59_contact_value",
    "C59_contact_motion",
    "C59_contact_jacobian_partial",
    "C59_contact_same_robot",
    "C59_jacobian_refuted",
    "C59_velocity_refuted",
    "C59_angular_refuted",
    "C59_normal_acceleration_refuted",
    "C59_same_robot_refuted"
   ],
   "note": "Full statement false: C59_jacobian_refuted, C59_velocity_refuted, C59_angular_refuted, C59_normal_acceleration_refuted, C59_same_robot_refuted. Proved for the frame of the body itself (C59_velocity_partial), with the exact conditions in the other cases (C59_jacobian_exact, C59_velocity_exact)."
  },
  {
   "property": "C60",
   "status": "partial",
   "theorems": [
    "C60_plane",
    "C60_constructed",
    "C60_size",
    "C60_distance",
    "C60_velocity",
    "C60_acceleration",
    "C60_static",
    "C60_com_value",
    "C60_com_velocity",
    "C60_com_jacobian_partial",
    "C60_com_jdot_refuted",
    "C60_offset_refuted",
    "C60_point_refuted"
   ],
   "note": "Full statement false: C60_com_jdot_refuted (JDot never written, Jacobian overwritten), C60_offset_refuted and C60_point_refuted (planes given by an offset). Proved in full for CoMInConvexFunction with planes given by a point, and for the other outputs of CoMFunction; C60_com_jacobian_partial holds while JDot is not asked for."
  },
  {
   "property": "C61",
   "status": "partial",
   "theorems": [
    "C61_size",
    "C61_defined_partial",
    "C61_value",
    "C61_jacobian",
    "C61_velocity_partial",
    "C61_derivative_partial",
    "C61_translation_partial",
    "C61_acceleration_translation_partial",
    "C61_acceleration_first_partial",
    "C61_third_refuted",
    "C61_frame_refuted",
    "C61_points_refuted",
    "C61_first_tick_refuted"
   ],
   "note": "Full statement false: C61_third_refuted (undefined from the third pair on), C61_frame_refuted (frames other than the body's), C61_points_refuted and C61_first_tick_refuted (normal acceleration). Proved: size, value, Jacobian against velocity without restriction; velocity and derivative for frames of bodies and for bodies that do not turn; normal acceleration for bodies that do not turn, and for the first pair with a fixed second hull."
  },
  {
   "property": "C62",
   "status": "partial",
   "theorems": [
    "C62_sizes_partial",
    "C62_linear_partial",
    "C62_defined_partial",
    "C62_split",
    "C62_resize",
    "C62_empty_refuted",
    "C62_linear_refuted",
    "C62_remove_refuted",
    "C62_properties_refuted"
   ],
   "note": "Full statement false: C62_empty_refuted, C62_linear_refuted, C62_remove_refuted, C62_properties_refuted. Proved in full for variables that are not empty, with the exact conditions of definedness; C62_split and C62_resize give the content of the Jacobians."
  },
  {
   "property": "C63",
   "status": "partial",
   "theorems": [
    "C63_bounds",
    "C63_defined",
    "C63_root_refuted",
    "C63_spill_refuted",
    "C63_sizes",
    "C63_velocity_sizes",
    "C63_sizes_refuted",
    "C63_initial",
    "C63_runs",
    "C63_update",
    "C63_idle",
    "C63_by_hand",
    "C63_follow",
    "C63_elapsed_refuted",
    "C63_velocity_refuted",
    "C63_outputs",
    "C63_dynamics_refuted",
    "C63_normal_acceleration",
    "C63_no_dof"
   ],
   "note": "Full statement false: C63_sizes_refuted, C63_spill_refuted, C63_root_refuted, C63_elapsed_refuted, C63_velocity_refuted, C63_dynamics_refuted. Proved for limits that fit their joints (with the exact condition of definedness), and one integration per update after any number of ticks."
  },
  {
   "property": "C64",
   "status": "proved",
   "theorems": [
    "C64_calculates",
    "C64_rank",
    "C64_post",
    "C64_updates",
    "C64_throw_refuted",
    "C64_contracts",
    "C64_elimination_partial",
    "C64_constant_once"
   ],
   "note": "Exact arithmetic; the decomposition by Eigen is assumed to be what its documentation says. C64_throw_refuted: no guarantee after an exception. C64_elimination_partial carries the definedness hypothesis of C33_equivalence_partial."
  },
  {
   "property": "C65",
   "status": "partial",
   "theorems": [
    "C65_constructed",
    "C65_redundant_refuted",
    "C65_blocks",
    "C65_matrix_partial",
    "C65_matrix_refuted",
    "C65_constant",
    "C65_set_matrix_refuted",
    "C65_auto",
    "C65_auto_later_refuted",
    "C65_set_matrix"
   ],
   "note": "The matrix is the right one when no substituted variable is partly in a variable of a constraint (aligned), refuted otherwise. A calculator chosen for a jacobian declared diagonal, or declared constant, is wrong after the jacobian is changed (refuted)."
  },
  {
   "property": "C66",
   "status": "proved",
   "theorems": [
    "C66_expression",
    "C66_variable",
    "C66_function",
    "C66_refused",
    "C66_resized"
   ],
   "note": "With no dynamics (`None`), where the constraint is on the function itself; the other dynamics are in C36-C41. C66_resized: undefined when the function is resized between the writing and the addition."
  },
  {
   "property": "C67",
   "status": "partial",
   "theorems": [
    "C67_jacobian_partial",
    "C67_columns",
    "C67_jacobian_refuted",
    "C67_derivative",
    "C67_small_steps",
    "C67_velocity",
    "C67_normal_acceleration",
    "C67_normal_small_steps",
    "C67_function_partial",
    "C67_affine",
    "C67_correct_refuted",
    "C67_untested",
    "C67_throws"
   ],
   "note": "C67_jacobian_refuted: only the first column of the jacobian is compared; the exact result is C67_jacobian_partial (right for functions of one coordinate, C67_columns). C67_correct_refuted: a correct function is rejected where its derivative is zero. Velocity and normal acceleration are proved for all tested points."
  },
  {
   "property": "C68",
   "status": "partial",
   "theorems": [
    "C68_history",
    "C68_declared",
    "C68_logged",
    "C68_inputs",
    "C68_alive",
    "C68_throws",
    "C68_throw_effect",
    "C68_execute",
    "C68_inputs_refuted",
    "C68_execute_refuted"
   ],
   "note": "Everything is proved except that inputs after the first of a variadic addInputDependency become inputs (refuted, exact characterisation C68_inputs) and that execution is always defined (refuted, exact condition in C68_execute)."
  },
  {
   "property": "C69",
   "status": "partial",
   "theorems": [
    "C69_output",
    "C69_graph",
    "C69_plan",
    "C69_returns",
    "C69_disabled",
    "C69_throws_refuted",
    "C69_clear_refuted",
    "C69_disabled_refuted"
   ],
   "note": "Proved: termination, exactness, exact condition for the exception, equality with the calls of the plan when the walk returns and the graph was not cleared. Refuted: that it returns for every well-formed network (variadic inputs) and that it follows clear()."
  },
  {
   "property": "C70",
   "status": "proved",
   "theorems": [
    "C70_tree",
    "C70_graph",
    "C70_list",
    "C70_list_graph",
    "C70_leaf_refuted",
    "C70_all_refuted",
    "C70_throws_refuted"
   ],
   "note": "The property is proved as stated; the refuted theorems are about stronger readings (leaves, default test, no exception for well-declared nodes)."
  },
  {
   "property": "C71",
   "status": "partial",
   "theorems": [
    "C71_arguments",
    "C71_order",
    "C71_task",
    "C71_checked",
    "C71_current",
    "C71_default",
    "C71_default_refuted",
    "C71_nonnegative_partial",
    "C71_nonnegative_refuted",
    "C71_announced_partial",
    "C71_silent",
    "C71_announced_refuted"
   ],
   "note": "construction, order of arguments, defaults, current values and notification of weight changes made by value are proved for all histories; refuted: non-negativity after value(), notification of assignments from requirement objects and of priority changes, isDefault as equality with the default"
  },
  {
   "property": "C72",
   "status": "partial",
   "theorems": [
    "C72_processed_partial",
    "C72_processed_refuted",
    "C72_variables",
    "C72_coarse",
    "C72_rewritten",
    "C72_rewritten_refuted",
    "C72_order_refuted",
    "C72_additional_refuted",
    "C72_bound",
    "C72_scheme_bound",
    "C72_targets",
    "C72_lookup",
    "C72_product"
   ],
   "note": "proved for variables that meet one substituted variable at most (C72_processed_partial), with the exact variables in all cases (C72_variables), the rewriting (C72_rewritten) and the bounds (C72_bound, C72_scheme_bound, C72_targets); refuted: several substituted parts of a variable, unnoticed partial overlaps, order of variables, additional constraints, look up for one-sided targets"
  },
  {
   "property": "C73",
   "status": "proved",
   "theorems": [
    "C73_wrappers_are_values",
    "C73_owned_by_exactly_one",
    "C73_nothing_leaks",
    "C73_undefined_iff_improper",
    "C73_copy_is_independent",
    "C73_modifiers",
    "C73_throwing_changes_nothing",
    "C73_runs_with_its_kind_of_source",
    "C73_every_wrapper_can_be_copied_refuted",
    "C73_empty_wrappers_report_refuted"
   ],
   "note": "simulation of values for all programs (C73_wrappers_are_values), ownership and absence of leaks, exact set of undefined calls; side claims refuted: empty wrappers can be copied, empty wrappers report that they are empty"
  },
  {
   "property": "C74",
   "status": "partial",
   "theorems": [
    "C74_solving_keeps_the_permission_refuted",
    "C74_solving_keeps_the_permission_partial",
    "C74_later_resolution",
    "C74_first_resolution",
    "C74_balance",
    "C74_one_value_per_scheme_and_problem",
    "C74_check_disabled_refuted",
    "C74_mirrored_restore_refuted",
    "C74_exception_disables_check_refuted",
    "C74_unchecked_builds",
    "C74_solve_gets_its_own_data",
    "C74_data_created_once",
    "C74_order",
    "C74_failure_keeps_the_variables_refuted",
    "C74_finalizations"
   ],
   "note": "proved for mirrored programs that return and use schemes already used on the problem (C74_solving_keeps_the_permission_partial), with the exact effect of every resolution (C74_first_resolution, C74_later_resolution), the balance of the stack and the guarantee on the data for all histories; refuted for first resolutions and exceptions"
  },
  {
   "property": "C75",
   "status": "partial",
   "theorems": [
    "C75_whole",
    "C75_names_exist",
    "C75_object",
    "C75_graph",
    "C75_graph_colours_partial",
    "C75_used_target",
    "C75_nodes_one_function",
    "C75_nodes_return_partial",
    "C75_returns_refuted",
    "C75_graph_colours_refuted",
    "C75_names_of_one_object",
    "C75_unique_names_partial",
    "C75_unique_names_refuted",
    "C75_clean",
    "C75_clean_same",
    "C75_promoted_type",
    "C75_promoted_type_is_last_refuted",
    "C75_namespace"
   ],
   "note": "exact characterisation of all three drawings for every log (C75_whole, C75_object, C75_graph), colours with one function per update (C75_graph_colours_partial, which holds for logs of nodes: C75_nodes_one_function), names without digits in the types; refuted: return for all accepted declarations, colours with two functions, unique names, latest type"
  },
  {
   "property": "C76",
   "status": "partial",
   "theorems": [
    "C76_defined",
    "C76_sound",
    "C76_exact",
    "C76_exact_only",
    "C76_element_refuted",
    "C76_transposed_refuted",
    "C76_block",
    "C76_blocks",
    "C76_steps",
    "C76_range"
   ],
   "note": "defined and sound for all layouts, exact if and only if the columns are one after the other (C76_exact_only), in particular for blocks and strided maps; refuted for the other layouts"
  },
  {
   "property": "C77",
   "status": "partial",
   "theorems": [
    "C77_rotation_vectors",
    "C77_value",
    "C77_zero",
    "C77_unique",
    "C77_velocity_partial",
    "C77_acceleration_partial",
    "C77_derivative",
    "C77_jacobian_partial",
    "C77_jacobian_refuted",
    "C77_half_turn_refuted"
   ],
   "note": "value characterised for all histories, zeros and uniqueness proved, derivative of the value computed for all motions below half a turn; the Jacobian is the derivative exactly when the frame turns around the axis of the error; refuted in general and at half a turn"
  },
  {
   "property": "C78",
   "status": "partial",
   "theorems": [
    "C78_plan",
    "C78_throws",
    "C78_up_to_date",
    "C78_general",
    "C78_cycle_refuted"
   ],
   "note": "plan, exceptions, ownership and up-to-date results proved for all networks without cycles of updates; with a cycle the graph may silently leave out a needed update (refuted)"
  },
  {
   "property": "C79",
   "status": "partial",
   "theorems": [
    "C79_position",
    "C79_defined",
    "C79_constructed",
    "C79_updated",
    "C79_rigid",
    "C79_pair",
    "C79_shared_refuted"
   ],
   "note": "position of every object after any history, update of all hulls, distances; refuted when two hulls share an object"
  },
  {
   "property": "C80",
   "status": "partial",
   "theorems": [
    "C80_constraint",
    "C80_shortcuts",
    "C80_tracks",
    "C80_null",
    "C80_double_sided",
    "C80_order_zero_refuted",
    "C80_size",
    "C80_size_refuted"
   ],
   "note": "constraint at orders one and two for all relations, motion of a linear function, null references; refuted: a reference of another size is accepted, order zero ignores the constant part"
  },
  {
   "property": "C81",
   "status": "proved",
   "theorems": [
    "C81_contents",
    "C81_allocations",
    "C81_no_allocation",
    "C81_map",
    "C81_calculator",
    "C81_kept",
    "C81_resize_refuted"
   ],
   "note": "contents, number of allocations and lifetime of maps for all histories; beside it, resize is shown not to keep coefficients"
  },
  {
   "property": "C82",
   "status": "partial",
   "theorems": [
    "C82_number",
    "C82_build",
    "C82_same",
    "C82_holds",
    "C82_shared_refuted",
    "C82_changed_refuted"
   ],
   "note": "the number held by every constraint after any history, own number at each build, same number for all when the schemes agree; refuted for schemes with different numbers"
  },
  {
   "property": "C83",
   "status": "partial",
   "theorems": [
    "C83_configuration",
    "C83_variable",
    "C83_relevant",
    "C83_short",
    "C83_no_file",
    "C83_reported_refuted"
   ],
   "note": "configuration of every joint, contents of the variable, irrelevance of the order and of the unusable entries, messages for the entries of another size; refuted that all unusable entries are reported"
  },
  {
   "property": "C84",
   "status": "partial",
   "theorems": [
    "C84_current",
    "C84_defined",
    "C84_unsupported",
    "C84_retry",
    "C84_stale_refuted",
    "C84_removed_refuted",
    "C84_recovered",
    "C84_weights"
   ],
   "note": "as long as nothing throws, each resolution is of the current problem; exact behaviour when and after it throws; refuted after an exception"
  },
  {
   "property": "C85",
   "status": "partial",
   "theorems": [
    "C85_defined",
    "C85_unbuilt",
    "C85_dimensions",
    "C85_warm",
    "C85_cold",
    "C85_off",
    "C85_valid",
    "C85_kept_refuted"
   ],
   "note": "dimensions, absence of state without warm start, exact content and validity of the warm start; refuted: it is lost by changes that keep all sizes"
  },
  {
   "property": "C86",
   "status": "proved",
   "theorems": [
    "C86_getter",
    "C86_reaches",
    "C86_copied",
    "C86_default"
   ],
   "note": "for all five solvers and the default one; LSSOL changes three parameters nobody chose, and one more, as stated by unchosen and configured"
  },
  {
   "property": "C87",
   "status": "partial",
   "theorems": [
    "C87_slice",
    "C87_write",
    "C87_history",
    "C87_add",
    "C87_view_refuted",
    "C87_declare_refuted"
   ],
   "note": "true of slices of constant objects and of all writes; that a slice which can be written to has its own properties is refuted"
  },
  {
   "property": "C88",
   "status": "proved",
   "theorems": [
    "C88_given",
    "C88_no_other_effect",
    "C88_valid",
    "C88_unbuilt",
    "C88_start_size_refuted"
   ],
   "note": "that solving before any build is undefined is C88_unbuilt; the size of the starting point is that of the last build, which may differ from that of the library in the case of C48_same_area_refuted: C88_start_size_refuted"
  }
 ]
}