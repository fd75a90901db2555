{"id": "C01", "title": "FE interpolation operator multiplies like the matrix it stands for", "statement": "For a FEMOperatorMatrix initialised with reinit() and any set of set_shape_function() calls, vector_mult(res,v) stores in res exactly the product of v with the dense block matrix whose (i, j*n_dofs+k) entry is the k-th shape function value given for block (i,j), and never reads or writes outside the arrays.", "quantifier": "all block counts, dof counts, sparsity patterns of set blocks, shape values and input vectors", "why_tests_cant": "the sparsity pattern (which of the n_vars x n_vars blocks are set) and the sizes are unbounded; a test fixes one element type", "anchors": ["src/numerics/fem_operator_matrix.h: MAST::FEMOperatorMatrix::vector_mult, reinit, set_shape_function"]}
{"id": "C02", "title": "FE operator transpose product is the adjoint of the product", "statement": "vector_mult_transpose(res,w) computes the product with the transposed dense matrix, hence <w, B v> = <B^T w, v> for every v and w.", "quantifier": "all operators, all pairs of vectors of matching sizes", "why_tests_cant": "adjointness is a statement over all pairs of vectors and all operators", "anchors": ["src/numerics/fem_operator_matrix.h: MAST::FEMOperatorMatrix::vector_mult_transpose"]}
{"id": "C03", "title": "FE operator matrix-matrix products agree with dense products", "statement": "right_multiply, right_multiply_transpose (both overloads), left_multiply and left_multiply_transpose store exactly B*M, B^T*M, B^T*C, M*B and M*B^T for the dense matrices denoted by the operators.", "quantifier": "all operators and all matrices of conforming sizes", "why_tests_cant": "sizes, sparsity patterns and entries are unbounded", "anchors": ["src/numerics/fem_operator_matrix.h: right_multiply, right_multiply_transpose, left_multiply, left_multiply_transpose"]}
{"id": "C04", "title": "Real block form of complex element quantities is a homomorphism", "statement": "Assembling a complex element matrix into the 2n x 2n real matrix and multiplying by the stacked real/imaginary parts of a complex vector gives the stacked real/imaginary parts of the complex product; converting a real block matrix back to complex recovers the complex matrix it was assembled from.", "quantifier": "all sizes and all complex matrices and vectors", "why_tests_cant": "sign/placement mistakes show up only for particular entries; claim is over all matrices", "anchors": ["src/numerics/utility.h: transform_to_elem_vector, transform_to_elem_matrix, add_to_assembled_matrix, add_to_assembled_vector"]}
{"id": "C05", "title": "Parallel sum of a dense matrix is the entrywise sum over ranks", "statement": "parallel_sum(comm, m) leaves in m, on every rank, the entrywise sum of the matrices that the ranks passed in, for any matrix shape.", "quantifier": "all rank counts, shapes and matrices", "why_tests_cant": "number of ranks and shape unbounded; flattening order must be a bijection for every shape", "anchors": ["src/numerics/utility.h: parallel_sum"]}
{"id": "C06", "title": "depends_on decides reachability in the dependency graph", "statement": "depends_on(f) returns true exactly when f can be reached from the function through one or more registered dependencies (for a Parameter: exactly when f is that same parameter), whenever the dependency graph is acyclic.", "quantifier": "all finite acyclic dependency graphs and all pairs of functions", "why_tests_cant": "graphs of arbitrary depth and sharing; sensitivities silently become zero if a dependency is missed", "anchors": ["src/base/function_base.h: FunctionBase::depends_on", "src/base/parameter.h: Parameter::depends_on"]}
{"id": "C07", "title": "Constant field function differentiates consistently with its value", "statement": "The value of a ConstantFieldFunction is its parameter's current value, and its derivative w.r.t. f is one if f is that parameter and zero otherwise, i.e. equals the derivative of the value under perturbation of f.", "quantifier": "all parameters, points, times and histories of parameter assignments", "why_tests_cant": "holds for all histories of assignments, including interleavings with other parameters", "anchors": ["src/base/constant_field_function.cpp: ConstantFieldFunction::operator(), derivative", "src/base/parameter.h"]}
{"id": "C08", "title": "A property card depends on everything its properties depend on", "statement": "A FunctionSetBase (material or section card) reports that it depends on f whenever one of its registered properties is f or depends on f.", "quantifier": "all cards, all sets of registered functions and all f", "why_tests_cant": "all dependency graphs", "anchors": ["src/base/function_set_base.cpp: FunctionSetBase::depends_on, add, contains", "src/base/function_set_base.h: get"]}
{"id": "C09", "title": "Load registry behaves like a multimap", "statement": "After any sequence of add/remove/clear calls for side and volume loads, the loads reported for a boundary or subdomain id are exactly those added and not since removed; removing a load that was never added changes nothing; other ids are unaffected.", "quantifier": "all operation histories", "why_tests_cant": "histories are unbounded", "anchors": ["src/base/physics_discipline_base.cpp: add_side_load, remove_side_load, add_volume_load, remove_volume_load, clear_volume_load, clear_loads"]}
{"id": "C10", "title": "Clearing loads leaves no load behind", "statement": "After PhysicsDisciplineBase::clear_loads() no side, volume or point load of the discipline is applied any more.", "quantifier": "all histories of added loads", "why_tests_cant": "over all histories", "anchors": ["src/base/physics_discipline_base.cpp: clear_loads, add_point_load"]}
{"id": "C11", "title": "Each subdomain has exactly one property card", "statement": "get_property_card for an element of subdomain s returns the card last registered for s, and fails rather than returning another subdomain's card when none was registered.", "quantifier": "all histories of set_property_for_subdomain", "why_tests_cant": "over all histories and ids", "anchors": ["src/base/physics_discipline_base.cpp: set_property_for_subdomain, get_property_card"]}
{"id": "C12", "title": "Copying a Parameter is safe", "statement": "After copy-constructing a Parameter, the copy and the original can both be used and destroyed, in any order, without touching freed memory or freeing it twice.", "quantifier": "all sequences of construct/copy/assign/read/destroy", "why_tests_cant": "memory-safety over all histories", "anchors": ["src/base/parameter.h: Parameter copy constructor, destructor"]}
{"id": "C13", "title": "Transient history vectors hold the last steps in order", "statement": "After any number of advance_time_step() calls, solution(i) / velocity(i) / acceleration(i) are the values accepted i steps ago (and the initial ones before), and the time equals the initial time plus the sum of the steps.", "quantifier": "all numbers of steps, all solver orders, all sequences of converged solutions", "why_tests_cant": "unbounded numbers of steps; an off-by-one in the shift loop only shows for deeper histories", "anchors": ["src/solver/transient_solver_base.cpp: advance_time_step, solution, velocity, acceleration"]}
{"id": "C14", "title": "Second-order Newmark updates satisfy the Newmark relations", "statement": "The velocity and acceleration that the solver derives from the new and previous state satisfy x1 = x0 + dt v0 + dt^2((1/2-beta) a0 + beta a1) and v1 = v0 + dt((1-gamma) a0 + gamma a1); the sensitivity updates satisfy the same relations, and the perturbation updates are their linearisation.", "quantifier": "all states, dt != 0, beta != 0, all gamma", "why_tests_cant": "identity over all real inputs", "anchors": ["src/solver/second_order_newmark_transient_solver.cpp: update_velocity, update_acceleration, update_sensitivity_*, update_delta_*"]}
{"id": "C15", "title": "First-order Newmark update satisfies its relation", "statement": "The velocity that the first-order solver derives satisfies x1 = x0 + dt((1-beta) v0 + beta v1), and sensitivity and perturbation updates are consistent with it.", "quantifier": "all states, dt != 0, beta != 0", "why_tests_cant": "identity over all real inputs", "anchors": ["src/solver/first_order_newmark_transient_solver.cpp: update_velocity, update_sensitivity_velocity, update_delta_velocity"]}
{"id": "C16", "title": "Transient element Jacobian is the derivative of the transient residual", "statement": "For every element whose mass and force contributions are linear in state, velocity and acceleration, the Jacobian assembled by the Newmark solvers equals the derivative of the assembled residual with respect to the new state, in the normal and in the highest-derivative solve.", "quantifier": "all linear element operators, dt, beta, gamma, histories", "why_tests_cant": "consistency over all operators and all real states; a wrong factor only degrades Newton convergence in a test", "anchors": ["src/solver/second_order_newmark_transient_solver.cpp: elem_calculations", "src/solver/first_order_newmark_transient_solver.cpp: elem_calculations"]}
{"id": "C17", "title": "Generalized-alpha coefficients are second order and unconditionally stable", "statement": "For every rho_inf in [0,1] the coefficients satisfy gamma = 1/2 - alpha_m + alpha_f, alpha_m <= alpha_f <= 1/2 and beta >= 1/4 + (alpha_f - alpha_m)/2.", "quantifier": "all rho_inf in [0,1]", "why_tests_cant": "real-valued parameter range", "anchors": ["src/solver/generalized_alpha_newmark_transient_solver.cpp: update_coefficient"]}
{"id": "C18", "title": "Continuation step size stays within its limits", "statement": "After every successful continuation solve() the arc length used for the next step lies in [min_step, max_step], and it grows only when fewer than the desired iterations were needed and shrinks only when more were needed.", "quantifier": "all iteration counts, arc lengths, limits and exponents", "why_tests_cant": "histories of solves are unbounded, parameters real", "anchors": ["src/solver/continuation_solver_base.cpp: solve"]}
{"id": "C19", "title": "A failed continuation solve restores the last state and terminates", "statement": "When the Newton iterations do not converge, solve() restores state and load parameter, halves the arc length down to min_step, and terminates after finitely many restarts if min_step > 0.", "quantifier": "all residual histories, initial arc lengths and limits", "why_tests_cant": "termination over all oracle behaviours", "anchors": ["src/solver/continuation_solver_base.cpp: solve", "src/solver/continuation_solver_base.cpp: _reset_iterations"]}
{"id": "C20", "title": "Schur-factorised continuation step solves the bordered system", "statement": "The increment computed through the Schur complement satisfies both the residual equation J dX + dfdp dp = -f and the constraint equation dgdX.dX + dgdp dp = -g.", "quantifier": "all sizes, all invertible Jacobians and all right-hand sides with non-zero Schur complement", "why_tests_cant": "all matrices and vectors", "anchors": ["src/solver/continuation_solver_base.cpp: _solve_schur_factorization"]}
{"id": "C21", "title": "Arc-length search direction is a unit tangent and its constraint gradient is exact", "statement": "The scaled direction (X_scale dX, p_scale dp) implied by dp/ds has unit length, and the returned dg/dp and dg/dX are the derivatives of the returned constraint g with the direction held fixed; g vanishes exactly when the scaled step from the previous point has component arc_length along that direction (so the step is at least that long).", "quantifier": "all states, scales, tangents", "why_tests_cant": "identity over all real vectors of any size", "anchors": ["src/solver/arclength_continuation_solver.cpp: _g, initialize", "src/solver/pseudo_arclength_continuation_solver.cpp: _g, initialize, _update_search_direction"]}
{"id": "C22", "title": "Stabilised sensitivity: averaged mass and integrated Jacobian", "statement": "After n sub-steps of equal size the averaged mass matrix is the arithmetic mean of the element mass matrices of those steps and the integrated Jacobian is dt times their sum.", "quantifier": "all numbers of steps and all matrices", "why_tests_cant": "unbounded number of steps in a running average", "anchors": ["src/solver/stabilized_first_order_transient_sensitivity_solver.cpp: sensitivity_solve"]}
{"id": "C23", "title": "Stabilised sensitivity: rejected steps keep the last accepted solution", "statement": "If the amplification test rejects the last trial, the solver returns with the most recent accepted sensitivity solution.", "quantifier": "all sequences of accepted/rejected trials", "why_tests_cant": "over all histories", "anchors": ["src/solver/stabilized_first_order_transient_sensitivity_solver.cpp: sensitivity_solve"]}
{"id": "C24", "title": "Block complex solve equals the complex solve", "statement": "A solution of the interleaved 2n x 2n real system built by solve_block_matrix is, read back through real_solution()/imag_solution(), a solution of the complex system, and conversely.", "quantifier": "all sizes, matrices and right-hand sides", "why_tests_cant": "all systems", "anchors": ["src/solver/complex_solver_base.cpp: solve_block_matrix, real_solution, imag_solution"]}
{"id": "C25", "title": "Crossover identification brackets every damping sign change", "statement": "Every pair of consecutive sweep velocities between which the damping of a retained mode changes from non-positive to positive (or back) is recorded as exactly one crossover with that pair as its bracket.", "quantifier": "all sweeps (any number of velocities and modes) and all damping values", "why_tests_cant": "unbounded sweeps", "anchors": ["src/aeroelasticity/time_domain_flutter_solver.cpp: _identify_crossover_points"]}
{"id": "C26", "title": "Flutter root search keeps its bracket and reports success only within tolerance", "statement": "While refining a crossover, the search keeps lower damping <= 0 < upper damping with the trial velocity inside the bracket; it reports success only if the returned root's damping magnitude is within tolerance.", "quantifier": "all eigen-solution oracles, brackets and iteration limits", "why_tests_cant": "oracle (eigen-solver) behaviours unbounded", "anchors": ["src/aeroelasticity/time_domain_flutter_solver.cpp: _bisection_search"]}
{"id": "C27", "title": "find_next_root returns a converged root only", "statement": "find_next_root()/find_critical_root() return true only when the stored root satisfies the damping tolerance.", "quantifier": "all eigen-solution oracles", "why_tests_cant": "over all oracles", "anchors": ["src/aeroelasticity/time_domain_flutter_solver.cpp: find_next_root, find_critical_root"]}
{"id": "C28", "title": "Critical flutter root is the lowest", "statement": "The root returned by find_critical_root() has the lowest velocity among the bracketed crossovers.", "quantifier": "all damping curves", "why_tests_cant": "over all curves", "anchors": ["src/aeroelasticity/time_domain_flutter_solver.cpp: find_critical_root, _identify_crossover_points"]}
{"id": "C29", "title": "Mode tracking permutes roots", "statement": "Sorting a flutter solution against the previous one only permutes its roots: none is lost or duplicated.", "quantifier": "all numbers of roots and all eigenvectors", "why_tests_cant": "over all sizes and values", "anchors": ["src/aeroelasticity/time_domain_flutter_solution.cpp: sort", "src/aeroelasticity/flutter_solution_base.cpp: swap_root"]}
{"id": "C30", "title": "Flutter speed sensitivity keeps the root on the stability boundary", "statement": "The velocity sensitivity reported by calculate_sensitivity() is the one for which the total derivative of the root's damping vanishes.", "quantifier": "all partial sensitivities with nonzero dRe/dV", "why_tests_cant": "all reals", "anchors": ["src/aeroelasticity/time_domain_flutter_solver.cpp: calculate_sensitivity", "src/aeroelasticity/ug_flutter_solver.cpp: calculate_sensitivity"]}
{"id": "C31", "title": "Eigenvalue sensitivity is unaffected by the identity blocks left in the sensitivity matrices", "statement": "For an exact eigenpair of the first-order form, the eigenvalue sensitivity computed with the assembled sensitivity matrices equals the one of the true derivative matrices.", "quantifier": "all sizes, all eigenpairs", "why_tests_cant": "all matrices", "anchors": ["src/aeroelasticity/time_domain_flutter_solver.cpp: _initialize_matrix_sensitivity_for_param"]}
{"id": "C32", "title": "Optimisation history file round-trips design variables", "statement": "Design variables read by initialize_dv_from_output_file(file, iter) are those that were written at iteration iter, for every recorded iteration.", "quantifier": "all numbers of variables, constraints and iterations", "why_tests_cant": "file length and sizes unbounded", "anchors": ["src/optimization/function_evaluation.cpp: output, initialize_dv_from_output_file, _output_wrapper"]}
{"id": "C33", "title": "Constraint Jacobian layout is preserved by each optimiser interface", "statement": "The constraint gradient handed to NLopt/DOT/GCMMA for constraint i and variable j is the one the user stored for (i,j), with no out-of-bounds access.", "quantifier": "all numbers of constraints and variables, all active sets", "why_tests_cant": "sizes unbounded", "anchors": ["src/optimization/nlopt_optimization_interface.cpp: inequality_constraint_evaluation", "src/optimization/dot_optimization_interface.cpp: optimize", "src/optimization/gcmma_optimization_interface.cpp: optimize"]}
{"id": "C34", "title": "Optimiser evaluates the user's functions only inside the bounds", "statement": "Every design point at which GCMMA's interface evaluates the user's functions lies within the variable bounds.", "quantifier": "all problems whose subproblem solutions are within bounds", "why_tests_cant": "all histories of evaluations", "anchors": ["src/optimization/gcmma_optimization_interface.cpp: optimize"]}
{"id": "C35", "title": "GCMMA interface stops only on the documented convergence criterion", "statement": "The relative-change stop criterion fires only if the last n_iters_relative_change objective values agree within tolerance; the iteration limit always stops the loop.", "quantifier": "all objective histories and settings", "why_tests_cant": "histories unbounded", "anchors": ["src/optimization/gcmma_optimization_interface.cpp: optimize"]}
{"id": "C36", "title": "SNOPT/NPSOL exit message matches the exit code", "statement": "The exit category printed for INFORM is INFORM with its last digit cleared.", "quantifier": "all INFORM codes", "why_tests_cant": "over all codes", "anchors": ["src/optimization/npsol_optimization_interface.cpp: _print_termination_message"]}
{"id": "C37", "title": "Equality constraints stay equalities in the NPSOL interface", "statement": "For each equality constraint both bounds passed to NPSOL are zero.", "quantifier": "all numbers of constraints", "why_tests_cant": "all sizes", "anchors": ["src/optimization/npsol_optimization_interface.cpp: optimize"]}
{"id": "C38", "title": "verify_gradients accepts exactly the gradients within tolerance", "statement": "verify_gradients returns true iff every objective and constraint derivative agrees with its central difference within the stated relative tolerance, and central differences are exact for quadratic functions.", "quantifier": "all functions, numbers of variables and constraints", "why_tests_cant": "all functions", "anchors": ["src/optimization/function_evaluation.cpp: verify_gradients"]}
{"id": "C39", "title": "Parametric line study samples the segment between the two designs", "statement": "The i-th sampled design is dv1 + i/divs (dv2 - dv1), so first and last samples are the given designs, and the reported objective is that of the sample.", "quantifier": "all designs and positive divs", "why_tests_cant": "all sizes", "anchors": ["src/optimization/function_evaluation.cpp: parametric_line_study"]}
{"id": "C40", "title": "Density filter preserves constants and bounds", "statement": "For every design-variable dof the filtered value is a convex combination of the inputs: it preserves constants, is linear and stays between the minimum and maximum of the neighbouring inputs.", "quantifier": "all meshes, radii, inputs", "why_tests_cant": "all point sets and inputs", "anchors": ["src/level_set/filter_base.cpp: _init, compute_filtered_values"]}
{"id": "C41", "title": "All overloads of the filter agree", "statement": "The three compute_filtered_values overloads return the same filtered values for the same input.", "quantifier": "all inputs, meshes, sets of design variables", "why_tests_cant": "all inputs", "anchors": ["src/level_set/filter_base.cpp: compute_filtered_values"]}
{"id": "C42", "title": "Influence-domain test never misses an influenced element", "statement": "If if_elem_in_domain_of_influence(elem, node) is false, no node of elem has a non-zero filter weight from that node.", "quantifier": "all elements, nodes, radii", "why_tests_cant": "all geometries", "anchors": ["src/level_set/filter_base.cpp: if_elem_in_domain_of_influence"]}
{"id": "C43", "title": "Material/void dof partition is exact", "statement": "partition_local_elem_rows splits the element's dofs into two sorted disjoint lists which together contain each dof exactly once, void dofs being those of nodes with negative level set.", "quantifier": "all numbers of variables and nodes and all level-set values", "why_tests_cant": "all sizes", "anchors": ["src/level_set/interface_dof_handler.cpp: partition_local_elem_rows"]}
{"id": "C44", "title": "Static condensation is equivalent to the full element system", "statement": "Solving with the factored Jacobian and residual and recovering the void dofs gives a solution of the unreduced element system.", "quantifier": "all sizes, all invertible void blocks", "why_tests_cant": "all matrices", "anchors": ["src/level_set/interface_dof_handler.cpp: element_factored_residual_and_jacobian, update_factored_element_solution"]}
{"id": "C45", "title": "Material level count around a node", "statement": "The number of sign changes around the periphery of a node patch is even and half of it is the number of separate material runs; patches with any number of neighbouring elements are handled without out-of-bounds access.", "quantifier": "all level-set values, all patch sizes", "why_tests_cant": "all cyclic sequences", "anchors": ["src/level_set/material_patch.cpp: _quad4_material_levels"]}
{"id": "C46", "title": "Level-set intersection classifies elements on the correct side", "statement": "If an element is reported to be entirely on the positive (negative) side, all its nodes have values above (below) the tolerance; sub-elements reported on one side have no corner on the strictly other side.", "quantifier": "all nodal level-set values", "why_tests_cant": "all real 4-tuples including ties with the tolerance", "anchors": ["src/level_set/level_set_intersection.cpp: _init_on_first_order_ref_elem, _find_quad4_intersections"]}
{"id": "C47", "title": "Sub-elements tile the parent element", "statement": "The (signed) areas of the positive and negative sub-elements add up to the area of the parent element, for every intersection mode, so the positive volume fraction is between 0 and 1 for convex elements.", "quantifier": "all quadrilateral geometries, all intersection locations, all modes", "why_tests_cant": "all geometries", "anchors": ["src/level_set/level_set_intersection.cpp: _find_quad4_intersections, get_positive_phi_volume_fraction"]}
{"id": "C48", "title": "Edge intersection stays inside the edge and is exact for linear level sets", "statement": "The non-dimensional intersection location found for an edge with end values of opposite sign is strictly between 0 and 1, and the level set vanishes there if it is affine along the edge.", "quantifier": "all level-set functions along the edge", "why_tests_cant": "all functions", "anchors": ["src/level_set/level_set_intersection.cpp: _find_intersection_on_straight_edge"]}
{"id": "C49", "title": "Sub-element ids are unique", "statement": "Ids given to sub-elements differ from all mesh element ids and from each other across elements, and ids given to new nodes from all mesh node ids and from each other.", "quantifier": "all element ids and sub-element counts within the limit", "why_tests_cant": "all ids", "anchors": ["src/level_set/level_set_intersection.cpp: _init_on_first_order_ref_elem"]}
{"id": "C50", "title": "Sub-element mesh refinement is undone by clear_mesh", "statement": "process_mesh() followed by clear_mesh() restores elements, nodes and subdomain ids of the mesh.", "quantifier": "all meshes and level sets", "why_tests_cant": "all meshes", "anchors": ["src/level_set/sub_elem_mesh_refinement.cpp: process_mesh, clear_mesh"]}
{"id": "C51", "title": "Cut-edge nodes are shared consistently", "statement": "The node created on a cut edge is the same for both elements sharing the edge; with a weak discontinuity both sides share it, with a strong discontinuity each side has its own; the node is located at the requested point.", "quantifier": "all sequences of node requests", "why_tests_cant": "all request histories", "anchors": ["src/level_set/sub_elem_mesh_refinement.cpp: _add_node", "src/level_set/sub_elem_node_map.cpp"]}
{"id": "C52", "title": "Hanging-node constraint interpolates linearly", "statement": "The constraint added for a hanging node reproduces every field that is affine along the edge, and only dofs owned by the rank are constrained.", "quantifier": "all node locations and affine fields", "why_tests_cant": "all geometries", "anchors": ["src/level_set/sub_elem_mesh_refinement.cpp: constrain"]}
{"id": "C53", "title": "von Mises stress and its sensitivity", "statement": "The von Mises stress is non-negative, invariant under hydrostatic stress, homogeneous of degree one, and its reported sensitivity is the derivative along any differentiable stress path whenever it is non-zero.", "quantifier": "all stresses and stress paths", "why_tests_cant": "all real tensors", "anchors": ["src/elasticity/stress_output_base.cpp: Data::von_Mises_stress, dvon_Mises_stress_dp, dvon_Mises_stress_dX"]}
{"id": "C54", "title": "p-norm stress output lies between extreme stresses", "statement": "The aggregated stress lies between the smallest and the largest von Mises stress of the data, whatever the weights.", "quantifier": "all data sets, p, rho", "why_tests_cant": "any number of points", "anchors": ["src/elasticity/stress_output_base.cpp: functional_for_all_elems"]}
{"id": "C55", "title": "Aggregated stress sensitivities are exact derivatives", "statement": "The reported sensitivity of the p-norm, KS and smooth-ramp outputs equals the derivative of the reported output along any differentiable path of the von Mises stresses.", "quantifier": "all data sets and paths", "why_tests_cant": "any number of points, all reals", "anchors": ["src/elasticity/stress_output_base.cpp: functional_sensitivity_for_elem, functional_sensitivity_for_all_elems", "src/elasticity/ks_stress_output.cpp", "src/elasticity/smooth_ramp_stress_output.cpp"]}
{"id": "C56", "title": "KS output is a smooth maximum", "statement": "The KS output is bounded above by the largest normalised stress excess and converges to it from below with the weight of the critical point.", "quantifier": "all data sets", "why_tests_cant": "any number of points", "anchors": ["src/elasticity/ks_stress_output.cpp: functional_for_all_elems"]}
{"id": "C57", "title": "Nastran property/type pairs map to distinct subdomains", "statement": "Two elements read from a bulk data file get the same subdomain id iff they have the same property id and element type; the node and element maps are mutually inverse.", "quantifier": "all models and sequences of reads", "why_tests_cant": "all files", "anchors": ["src/mesh/nastran_io.cpp: read_elements, read_nodes, read"]}
{"id": "C58", "title": "Multilinear interpolation value and derivative", "statement": "The interpolated value lies between the neighbouring values, equals the given value at each station and is constant outside the range; derivative() returns the derivative of that value.", "quantifier": "all tables and abscissae", "why_tests_cant": "any table size", "anchors": ["examples/base/multilinear_interpolation.cpp: operator(), derivative"]}
{"id": "C59", "title": "Primitive and conservative fluid variables round-trip", "statement": "Initialising the primitive state from conservative variables and recomputing the conservative variables from density, velocity and temperature returns the originals; the free-stream built from a flight condition has that condition's Mach number, temperature and pressure.", "quantifier": "all states with positive density and energy, all dimensions", "why_tests_cant": "all reals", "anchors": ["src/fluid/primitive_fluid_solution.cpp: init", "src/fluid/flight_condition.h"]}
{"id": "C60", "title": "Constrained dof set is exact", "statement": "get_system_dirichlet_bc_dofs returns a dof if and only if it belongs to a variable constrained on the element's subdomain, lies on an exterior side whose boundary id has a registered Dirichlet condition for its variable, or has an empty (homogeneous) constraint row.", "quantifier": "all meshes, boundary id sets, registered conditions, variables", "why_tests_cant": "a test uses one mesh and one FE type; the claim is over all meshes and mixtures of variables", "anchors": ["src/base/physics_discipline_base.cpp: get_system_dirichlet_bc_dofs"]}
{"id": "C61", "title": "Generalized-alpha Jacobian is the derivative of its residual", "statement": "The Jacobian assembled by the generalized-alpha solver is the derivative of the residual it assembles, both in the time-step solve and in the solve for the initial acceleration, and the initial acceleration satisfies the equation of motion at the initial state.", "quantifier": "all elements with exact partial Jacobians, coefficients, histories", "why_tests_cant": "tests run one structure and see only that Newton converges", "anchors": ["src/solver/generalized_alpha_transient_solver.cpp: set_element_data, elem_calculations", "src/solver/transient_solver_base.cpp: solve_highest_derivative_and_advance_time_step"]}
{"id": "C62", "title": "Matrix-free transient product equals the Jacobian times the vector", "statement": "elem_linearized_jacobian_solution_product with perturbed data dX returns the assembled Jacobian times dX.", "quantifier": "all elements with exact products, all perturbations", "why_tests_cant": "universally quantified over directions and states", "anchors": ["src/solver/transient_solver_base.cpp: build_perturbed_local_quantities", "src/solver/generalized_alpha_transient_solver.cpp: set_element_perturbed_data"]}
{"id": "C63", "title": "Attaching element operations starts a new transient run", "statement": "After set_elem_operation_object() both the state and the sensitivity initial-derivative solves are admitted again.", "quantifier": "all earlier histories of the solver object", "why_tests_cant": "needs a history with two runs on one solver object", "anchors": ["src/solver/transient_solver_base.cpp: set_elem_operation_object, solve_highest_derivative_and_advance_time_step_with_sensitivity"]}
{"id": "C64", "title": "Stabilised sensitivity keeps a steady solution", "statement": "If the starting sensitivity solves the steady sensitivity equation at every stored solution, a call to sensitivity_solve returns it unchanged, for every admissible beta.", "quantifier": "all sizes, matrices, step counts and beta", "why_tests_cant": "over all systems and acceptance histories", "anchors": ["src/solver/stabilized_first_order_transient_sensitivity_solver.cpp: sensitivity_solve"]}
{"id": "C65", "title": "Interval integral of the output sensitivity", "statement": "evaluate_q_sens_for_previous_interval returns dt times the sum over the sub-steps of the interval of the output sensitivity at that sub-step's stored solution and time, with the solution sensitivity interpolated between the start and the end of the interval, and leaves the system clock unchanged.", "quantifier": "all intervals, outputs and solutions", "why_tests_cant": "over all numbers of sub-steps and all outputs", "anchors": ["src/solver/stabilized_first_order_transient_sensitivity_solver.cpp: evaluate_q_sens_for_previous_interval"]}
{"id": "C66", "title": "Flutter sensitivity accepts either solution sensitivity alone", "statement": "calculate_sensitivity() may be called with neither, one or both of the steady-solution sensitivities dX/dp and dX/dV; a missing one counts as zero.", "quantifier": "all combinations of supplied arguments", "why_tests_cant": "a missing combination is only noticed when it is used", "anchors": ["src/aeroelasticity/time_domain_flutter_solver.cpp: calculate_sensitivity"]}
{"id": "C67", "title": "Critical root without mode tracking", "statement": "analyze_and_find_critical_root_without_tracking() reports success only for a root with damping in (0, tolerance] that is the critical root of a stored solution, its march over the velocity range ends, and its trial velocities stay between the last stable and the first unstable velocity.", "quantifier": "all eigen-solution oracles, ranges, tolerances and iteration limits", "why_tests_cant": "over all oracles", "anchors": ["src/aeroelasticity/time_domain_flutter_solver.cpp: analyze_and_find_critical_root_without_tracking"]}
{"id": "C68", "title": "Critical root of one flutter solution", "statement": "get_critical_root() returns, among the roots in the upper half plane, the unstable one of lowest positive velocity, or the one of largest damping value when none is unstable, and null only when the upper half plane is empty.", "quantifier": "all solutions and tolerances", "why_tests_cant": "all sizes and values", "anchors": ["src/aeroelasticity/time_domain_flutter_solution.cpp: get_critical_root, n_unstable_roots_in_upper_complex_half"]}
{"id": "C69", "title": "Elements marked for condensation really are cut", "statement": "Every element for which if_factor_element() answers true after init has at least one node with negative and at least one with non-negative level set, so recovering its void solution never meets an empty block.", "quantifier": "all meshes, level sets and neighbour relations", "why_tests_cant": "ranges over all patches and level-set values", "anchors": ["src/level_set/interface_dof_handler.cpp: init, update_factored_element_solution", "src/level_set/material_patch.cpp: init"]}
{"id": "C70", "title": "Every level-set pattern on an element is classified", "statement": "Initialising the intersection of a QUAD4 element with a level set always ends with a mode; it never stops with an assertion.", "quantifier": "all nodal values, including those equal to the tolerance", "why_tests_cant": "all real 4-tuples", "anchors": ["src/level_set/level_set_intersection.cpp: _init_on_first_order_ref_elem, _find_quad4_intersections"]}
{"id": "C71", "title": "Reference coordinates of intersection nodes", "statement": "The reference coordinates reported for a node created by the intersection are mapped to the position of that node by the bilinear map of the parent element.", "quantifier": "all geometries, level sets and modes", "why_tests_cant": "all geometries", "anchors": ["src/level_set/level_set_intersection.cpp: get_nondimensional_coordinate_for_node, _add_node_local_coords"]}
{"id": "C72", "title": "Sub-elements belong to the subdomain of their parent", "statement": "Every sub-element created for the integration of a cut element carries the subdomain id of the parent, so the same property cards and loads apply to it.", "quantifier": "all parents handled (QUAD4, QUAD9) and all modes", "why_tests_cant": "all element types and modes", "anchors": ["src/level_set/level_set_intersection.cpp: init, _first_order_elem, _init_on_first_order_ref_elem"]}
{"id": "C73", "title": "process_mesh reports whether it changed the mesh", "statement": "process_mesh() returns true exactly when it added elements or nodes to the mesh, so a caller that reinitialises its systems only on true never works with stale data.", "quantifier": "all meshes, level sets, offsets and both kinds of discontinuity", "why_tests_cant": "all meshes and level sets", "anchors": ["src/level_set/sub_elem_mesh_refinement.cpp: process_mesh, _process_negative_element"]}
{"id": "C74", "title": "A strong discontinuity separates the two sides", "statement": "After process_mesh() with a strong discontinuity no node is shared by an element on the positive and one on the negative side of the level set, so fixing the negative side leaves the positive side free.", "quantifier": "all meshes and level sets", "why_tests_cant": "all meshes and level sets", "anchors": ["src/level_set/sub_elem_mesh_refinement.cpp: _process_sub_elements, _add_node, constrain"]}
{"id": "C75", "title": "Subdomain ids after mesh refinement follow the classification", "statement": "After process_mesh() an original element that is cut carries its id plus the inactive offset, one that lies on the negative side its id plus the negative offset, and every other its old id.", "quantifier": "all meshes, level sets and offsets, in 16-bit arithmetic", "why_tests_cant": "all meshes and level sets", "anchors": ["src/level_set/sub_elem_mesh_refinement.cpp: process_mesh"]}
{"id": "C76", "title": "Smooth-ramp stress output is a smooth excess", "statement": "The smooth-ramp output lies between the integral of the normalised stress above the reference (the ramp) and the same integral with the ramp value multiplied by the p-th root of two.", "quantifier": "all data sets and positive exponents", "why_tests_cant": "any number of points, all reals", "anchors": ["src/elasticity/smooth_ramp_stress_output.cpp: functional_for_all_elems"]}
{"id": "C77", "title": "Topology sensitivity of a stress output is the boundary-layer derivative", "statement": "When the topology parameter leaves the stored stresses alone, the reported sensitivity of a stress output is the derivative of the output as a layer of material with the normal velocity of the boundary is added.", "quantifier": "all data sets, boundary data sets and output kinds", "why_tests_cant": "a limit over arbitrary data", "anchors": ["src/elasticity/stress_output_base.cpp: functional_boundary_sensitivity_for_all_elems, functional_boundary_sensitivity_for_elem", "src/elasticity/ks_stress_output.cpp", "src/elasticity/smooth_ramp_stress_output.cpp"]}
{"id": "C78", "title": "Stress outputs do not depend on the partitioning", "statement": "Moving elements between processes or reordering them changes neither a stress output nor its sensitivity, and the reported maximum stress is the largest von Mises stress on any process.", "quantifier": "all distributions over any number of processes", "why_tests_cant": "all partitions", "anchors": ["src/elasticity/stress_output_base.cpp: functional_for_all_elems, functional_sensitivity_for_all_elems, get_maximum_von_mises_stress"]}
{"id": "C79", "title": "A stress output reflects the current data and coefficients", "statement": "In every history of calls, the total returned by a stress output is the aggregate of the points added since the last clear, with the coefficients last set.", "quantifier": "all call histories", "why_tests_cant": "all histories", "anchors": ["src/elasticity/stress_output_base.cpp: output_total, zero_for_analysis, clear, add_stress_strain_at_qp_location", "src/elasticity/stress_output_base.h: set_aggregation_coefficients"]}
{"id": "C80", "title": "Property table lists each property's own subdomains", "statement": "The map from Nastran property ids to subdomains, and every row of the table printed from it, list exactly the subdomains that were created for that property id.", "quantifier": "all files and histories of reads", "why_tests_cant": "any number of properties", "anchors": ["src/mesh/nastran_io.cpp: get_nastran_property_to_libmesh_subdomains_map, print_pid_to_subdomain_id_map"]}
{"id": "C81", "title": "SPC sets become node boundaries", "statement": "Reading a bulk data file gives the mesh one node boundary for every SPC id of the file, containing exactly the nodes of its cards.", "quantifier": "all files, both ways of reading", "why_tests_cant": "all files", "anchors": ["src/mesh/nastran_io.cpp: read_node_boundaries, read", "src/mesh/pynastran_io.pyx: getSPCs"]}
{"id": "C82", "title": "Zero-length bushings are given a length along their axis", "statement": "The second node of a bushing with coincident ends is moved along the x-axis of its coordinate system by a distance the mesh can resolve.", "quantifier": "all coordinate systems", "why_tests_cant": "all reals", "anchors": ["src/mesh/pynastran_io.pyx: buildBDFModel, zero-length bushings"]}
{"id": "C83", "title": "Perturbed flow state is the derivative of the state", "statement": "Every part of the small-disturbance state (density, velocity, energy, temperature, pressure, speed of sound, Mach number, entropy, viscosity, conductivity) is the derivative of the same part of the state along the conservative perturbation.", "quantifier": "all admissible states and perturbations, dimensions 1 to 3, inviscid and viscous", "why_tests_cant": "a limit at all real states", "anchors": ["src/fluid/small_disturbance_primitive_fluid_solution.cpp: init"]}
{"id": "C84", "title": "Conservative/primitive Jacobians", "statement": "The two variable-change matrices are the derivatives of the conservative variables with respect to the primitive ones and back, and each is the inverse of the other.", "quantifier": "all admissible states, dimensions 1 to 3", "why_tests_cant": "all reals", "anchors": ["src/fluid/fluid_elem_base.cpp: calculate_conservative_variable_jacobian"]}
{"id": "C85", "title": "Advection flux and its Jacobian", "statement": "The advection flux is that of the Euler equations in every direction and the returned Jacobian is its derivative with respect to the conservative variables.", "quantifier": "all admissible states, directions and dimensions 1 to 3", "why_tests_cant": "a limit at all real states", "anchors": ["src/fluid/fluid_elem_base.cpp: calculate_advection_flux, calculate_advection_flux_jacobian"]}
{"id": "C86", "title": "Sensitivity of the advection Jacobian", "statement": "The sensitivities of the advection Jacobian with respect to each primitive and each conservative variable are its partial derivatives.", "quantifier": "all admissible states, directions, variables and dimensions 1 to 3", "why_tests_cant": "a limit at all real states", "anchors": ["src/fluid/fluid_elem_base.cpp: calculate_advection_flux_jacobian_sensitivity_for_primitive_variable, calculate_advection_flux_jacobian_sensitivity_for_conservative_variable"]}
{"id": "C87", "title": "Characteristic decomposition of the advection Jacobian", "statement": "For every unit normal the returned eigenvalues are the normal velocity and the normal velocity minus and plus the speed of sound, the returned vectors are left eigenvectors of the Jacobian in the direction of the normal, and the returned inverse is their inverse.", "quantifier": "all admissible states and unit normals, dimensions 1 to 3", "why_tests_cant": "all reals, all normals", "anchors": ["src/fluid/fluid_elem_base.cpp: calculate_advection_left_eigenvector_and_inverse_for_normal"]}
{"id": "C88", "title": "Entropy variable Jacobians", "statement": "The Jacobians between conservative and entropy variables are symmetric, inverse to each other and the derivatives of the entropy variables.", "quantifier": "all admissible states, dimensions 1 to 3", "why_tests_cant": "a limit at all real states", "anchors": ["src/fluid/fluid_elem_base.cpp: calculate_entropy_variable_jacobian"]}
{"id": "C89", "title": "Diffusion flux and its matrices", "statement": "The diffusion flux is that of a Newtonian, heat conducting fluid; the diffusion matrices times the gradients of the conservative variables add up to it; the sensitivity of the stress and temperature gradient is their derivative.", "quantifier": "all admissible states and gradients, dimensions 1 to 3", "why_tests_cant": "all reals", "anchors": ["src/fluid/fluid_elem_base.cpp: calculate_diffusion_flux, calculate_diffusion_tensors, calculate_diffusion_tensors_sensitivity, calculate_diffusion_flux_jacobian, calculate_diffusion_flux_jacobian_primitive_vars"]}
{"id": "C90", "title": "Wall fluxes and pressure derivative", "statement": "The derivative of the pressure and the Jacobian for a moving slip wall are the derivatives of the pressure and of the wall flux with respect to the conservative variables.", "quantifier": "all admissible states, normals and wall motions, dimensions 1 to 3", "why_tests_cant": "a limit at all real states", "anchors": ["src/fluid/fluid_elem_base.cpp: calculate_pressure_derivative_wrt_conservative_variables, calculate_advection_flux_jacobian_for_moving_solid_wall_boundary"]}
{"id": "C91", "title": "Sub-element sides on the interface", "statement": "The side reported for a sub-element lies on the interface and is the reported side of a sub-element on the other side of the level set, traversed backwards; a sub-element without a reported side has no side on the interface.", "quantifier": "all level set values and elements", "why_tests_cant": "all sign patterns and ties of real values", "anchors": ["src/level_set/level_set_intersection.cpp: get_side_on_interface, has_side_on_interface, _init_on_first_order_ref_elem"]}
{"id": "C92", "title": "Material stiffness is Hooke's law", "statement": "For any material values for which straining takes work, the stiffness matrices of a material card relate stress and strain exactly as the three dimensional Hooke's law does under the assumption of the kind asked for: full three dimensional, plane stress, plane strain, bar, or transverse shear. They are symmetric and positive definite. The inertia, capacitance and conductance matrices give momentum, stored heat and heat flux from the density, specific heat and conductivities.", "quantifier": "all admissible material values of both card classes, all kinds of stiffness, all strains", "why_tests_cant": "The matrices are closed formulas in up to nine continuous values; tests check single entries at single values, mostly isotropic ones.", "anchors": ["src/property_cards/isotropic_material_property_card.cpp: StiffnessMatrix1D, StiffnessMatrix2D, StiffnessMatrix3D, TransverseShearStiffnessMatrix", "src/property_cards/orthotropic_material_property_card.cpp: StiffnessMatrix1D, StiffnessMatrix2D, StiffnessMatrix3D, TransverseShearStiffnessMatrix"]}
{"id": "C93", "title": "Material derivatives are derivatives", "statement": "Wherever a function of a material card can be evaluated, derivative() with respect to a parameter is the derivative of operator() along any smooth dependence of the material properties on the parameter.", "quantifier": "all functions of both card classes, all differentiable dependences of all properties on a parameter, all points", "why_tests_cant": "Finite difference tests sample one parameter at a few values; the derivative must hold for every combination of varying properties.", "anchors": ["src/property_cards/isotropic_material_property_card.cpp: derivative", "src/property_cards/orthotropic_material_property_card.cpp: derivative"]}
{"id": "C94", "title": "A material card hands out what was asked for", "statement": "Over any sequence of requests, a material card returns a function of the kind and dimension asked for; the same quantity is always the same object and different quantities are different objects; a request is refused only if no such quantity exists or a needed property is missing; destroying the card frees every object it handed out exactly once.", "quantifier": "all histories of requests, all sets of properties given to the card, both card classes", "why_tests_cant": "The answer depends on the history of earlier requests through the cached members.", "anchors": ["src/property_cards/isotropic_material_property_card.cpp: stiffness_matrix, thermal_expansion_matrix, transverse_shear_stiffness_matrix, capacitance_matrix, conductance_matrix, inertia_matrix, ~IsotropicMaterialPropertyCard", "src/property_cards/orthotropic_material_property_card.cpp: the same members"]}
{"id": "C95", "title": "Material dependence is complete", "statement": "Changing only properties that the function of a material card does not report a dependence on leaves its value unchanged.", "quantifier": "all functions of both card classes, all pairs of property values", "why_tests_cant": "Sensitivity analysis skips a function that reports no dependence; a missing registration shows only for the parameter concerned.", "anchors": ["src/property_cards/isotropic_material_property_card.cpp: constructors", "src/property_cards/orthotropic_material_property_card.cpp: constructors", "src/base/function_base.h: depends_on"]}
{"id": "C96", "title": "Heated material", "statement": "Stiffness times the strain in excess of the expansion returned by the card times the temperature rise is the stress of a heated body obeying the three dimensional law, under the assumption of the kind of stiffness used.", "quantifier": "all admissible material values, all temperature rises, all strains, all kinds of stiffness with both card classes", "why_tests_cant": "The relation ties two functions of the card together for every strain and temperature; single values of either cannot show it.", "anchors": ["src/property_cards/isotropic_material_property_card.cpp: ThermalExpansionMatrix", "src/property_cards/orthotropic_material_property_card.cpp: ThermalExpansionMatrix"]}
{"id": "C97", "title": "Turning a solid material turns its elastic and thermal law", "statement": "For every orthotropic solid material and every orientation given by three perpendicular unit axes, the stiffness matrix the solid section reports relates a strain and a stress in global components exactly when Hooke's law of the material relates their components along the material axes; it is symmetric and positive definite; with the thermal matrix the same holds for a heated body. The derivative reported with respect to a parameter that moves material values and the orientation is the derivative of these matrices. The polar orientation is the rotation about the third axis by its angle, with its derivative.", "quantifier": "all admissible material values, all orthonormal orientations, all strains, stresses and temperature rises, all differentiable dependences on a parameter", "why_tests_cant": "A wrong factor on shear components or a rotation in the wrong sense is invisible for special angles and isotropic values; the law must hold for every tensor and every orientation.", "anchors": ["src/coordinates/coordinate_base.cpp: stress_strain_transformation_matrix", "src/coordinates/coordinate_base.cpp: stress_strain_transformation_matrix_sens", "src/coordinates/polar_coordinate.cpp: PolarCoordinate", "src/property_cards/orthotropic_element_property_card_3D.cpp: StiffnessMatrix", "src/property_cards/orthotropic_element_property_card_3D.cpp: ThermalExpansionMatrix"]}
{"id": "C98", "title": "Conduction and heated stress of solid sections", "statement": "The conductance matrix of an oriented orthotropic solid relates a temperature gradient and a flux in global components exactly when the conductances of the material relate their components along its axes, and its derivative is reported. The isotropic solid section reports the stiffness and thermal matrices of the heated isotropic law, and their derivatives.", "quantifier": "all material values, all orthonormal orientations, all gradients, strains and temperature rises, all differentiable dependences on a parameter", "why_tests_cant": "A rotation in the wrong sense is invisible for isotropic conductances and for symmetric orientation matrices.", "anchors": ["src/property_cards/orthotropic_element_property_card_3D.cpp: ThermalConductanceMatrix", "src/property_cards/isotropic_element_property_card_3D.cpp: ThermalExpansionMatrix"]}
{"id": "C99", "title": "Section constants of a bar are integrals over the rectangle", "statement": "For every height, width and offset, the area, the first moments, the inertia matrix and the polar moment a bar section reports are the integrals of 1, z, y, y^2, yz, z^2 and y^2+z^2 over the offset rectangle. The torsional constant is that of the rectangle whichever side is called y, is positive and never exceeds the polar moment about the centre.", "quantifier": "all section dimensions and offsets", "why_tests_cant": "real-valued dimensions: a test samples a few of them", "anchors": ["src/property_cards/solid_1d_section_element_property_card.cpp: Area, TorsionalConstant, PolarInertia, AreaYMoment, AreaZMoment, AreaInertiaMatrix"]}
{"id": "C100", "title": "Bar section matrices give stress resultants", "statement": "For every material, section and every axial strain and curvatures, the axial force and bending moments obtained from the extension, coupling and bending matrices are the integrals of the axial stress and its moments over the section; the torque is shear modulus times torsional constant; the shear matrix is the shear stiffness integrated over the section times the shear coefficients; the thermal matrices are the resultants of the stress that suppresses expansion; deforming the bar takes positive work.", "quantifier": "all materials, sections, strains and curvatures", "why_tests_cant": "quantifies over real matrices and strain states", "anchors": ["src/property_cards/solid_1d_section_element_property_card.cpp: ExtensionStiffnessMatrix, ExtensionBendingStiffnessMatrix, BendingStiffnessMatrix, TransverseStiffnessMatrix, ThermalExpansionAMatrix, ThermalExpansionBMatrix"]}
{"id": "C101", "title": "Bar inertia is the kinetic energy of the section", "statement": "For every section, density and every motion of the section (three velocities and three rates of rotation), the quadratic form of the inertia matrix is the density times the integral of the squared speed over the section; the matrix is symmetric and positive definite.", "quantifier": "all sections, offsets and motions", "why_tests_cant": "quantifies over real sections and motions", "anchors": ["src/property_cards/solid_1d_section_element_property_card.cpp: InertiaMatrix", "src/elasticity/timoshenko_bending_operator.cpp"]}
{"id": "C102", "title": "Reported derivatives of bar section quantities are the derivatives", "statement": "For every smooth dependence of the dimensions, offsets, density, shear coefficients and material matrices on a parameter, each derivative a bar section reports is the derivative of the quantity it reports.", "quantifier": "all smooth parameter dependences and all sections", "why_tests_cant": "derivatives at every point cannot be tested by finite differences at some", "anchors": ["src/property_cards/solid_1d_section_element_property_card.cpp: derivative()"]}
{"id": "C103", "title": "Plate section matrices give stress resultants and kinetic energy", "statement": "For every material, thickness and offset and every strain and curvature, the membrane forces and moments obtained from the extension, coupling and bending matrices are the through-thickness integrals of the stress and of its moment; likewise the thermal, shear, conductance and capacitance matrices; the inertia matrix gives the kinetic energy of the moving section (plus a stated small drilling term).", "quantifier": "all materials, thicknesses, offsets, strains and motions", "why_tests_cant": "quantifies over real matrices and strain states", "anchors": ["src/property_cards/solid_2d_section_element_property_card.cpp"]}
{"id": "C104", "title": "Reported derivatives of plate section quantities are the derivatives", "statement": "For every smooth dependence of thickness, offset, density, shear coefficient and material matrices on a parameter, each derivative a plate section reports is the derivative of the quantity it reports.", "quantifier": "all smooth parameter dependences and all sections", "why_tests_cant": "derivatives at every point cannot be tested by finite differences at some", "anchors": ["src/property_cards/solid_2d_section_element_property_card.cpp: derivative()"]}
{"id": "C105", "title": "Layers are stacked without gap and their matrices add up", "statement": "For every number of layers, thicknesses and base position, layer i of a layered section fills the space between interface i and interface i+1, the stack as a whole lies where the base says, the derivative of a layer's position is the derivative, and the stiffness and inertia matrices of the stack are the integrals over the layers, each with its own material.", "quantifier": "all numbers of layers, thicknesses, base positions, materials", "why_tests_cant": "unbounded number of layers and real thicknesses", "anchors": ["src/property_cards/multilayer_1d_section_element_property_card.cpp", "src/property_cards/multilayer_2d_section_element_property_card.cpp: LayerOffset, Matrix, set_layers"]}
{"id": "C106", "title": "Destroying a layered section destroys each object once and only its own", "statement": "Destroying a layered section deletes no object twice and does not delete the thickness functions that the user handed to the layers.", "quantifier": "all numbers of layers", "why_tests_cant": "any number of layers; a test sees a crash only when the allocator does", "anchors": ["src/property_cards/multilayer_2d_section_element_property_card.cpp: ~LayerOffset, ~Multilayer2DSectionElementPropertyCard", "src/property_cards/multilayer_1d_section_element_property_card.cpp"]}
{"id": "C107", "title": "The bending model chosen is the one set, or the documented default", "statement": "For every bending model set by the user and every element, the model used is the one set; if none was set it is Bernoulli (DKT) for two-node bars (three-node triangles) of first order and Timoshenko (Mindlin) otherwise; plate models are refused for bars; the choice is never left open.", "quantifier": "all set models, element types and orders", "why_tests_cant": "all combinations of options and elements", "anchors": ["src/property_cards/element_property_card_1D.cpp: bending_model", "src/property_cards/element_property_card_2D.cpp: bending_model"]}
{"id": "C108", "title": "The assembled residual, Jacobian, outputs and sensitivities are sums over the mesh", "statement": "For every mesh, distribution over processors, constraints (Dirichlet and hanging) and point loads, the assembled residual is the sum of the element residuals minus the point loads, each counted once, with zero on constrained dofs; likewise the residual sensitivity, the output and its derivative; none of them depends on the distribution or the order of the elements.", "quantifier": "all meshes, distributions over processors, constraint rows, point loads, solutions and parameters", "why_tests_cant": "all meshes and partitions", "anchors": ["src/base/nonlinear_implicit_assembly.cpp: residual_and_jacobian, sensitivity_assemble", "src/base/assembly_base.cpp: calculate_output, calculate_output_derivative, calculate_output_direct_sensitivity"]}
{"id": "C109", "title": "Direct and adjoint sensitivities of an output agree", "statement": "For every system, output and parameter, if the solution sensitivity and the adjoint solution are exact solutions of their linear systems with the same matrix, the output sensitivities computed from them are equal.", "quantifier": "all systems, constraints, outputs, parameters and exact linear solvers", "why_tests_cant": "all systems; tests compare single problems within tolerances", "anchors": ["src/base/nonlinear_system.cpp: sensitivity_solve, adjoint_solve", "src/base/assembly_base.cpp: calculate_output_direct_sensitivity, calculate_output_adjoint_sensitivity"]}
{"id": "C110", "title": "Computed output sensitivities are total derivatives", "statement": "If the element residuals, outputs and loads are differentiable with the derivatives the element routines report and U(p) is a differentiable branch of solutions, the sensitivity reported for the output, by either method, is the derivative of p -> output(p, U(p)), and the computed solution sensitivity is U'(p).", "quantifier": "all systems, smooth element routines, solution branches and parameters", "why_tests_cant": "a statement about limits over all smooth problems", "anchors": ["src/base/nonlinear_system.cpp: sensitivity_solve, adjoint_solve", "src/base/assembly_base.cpp"]}
{"id": "C111", "title": "Adjoint and sensitivity solves are performed at the solution passed in", "statement": "For every solution X passed to sensitivity_solve and adjoint_solve, the linear system solved is the one of the Jacobian (its transpose) at X.", "quantifier": "all solutions X and states of the system", "why_tests_cant": "all X, not only the stored solution", "anchors": ["src/base/nonlinear_system.cpp: adjoint_solve, sensitivity_solve"]}
{"id": "C112", "title": "Declaring which elements depend on a parameter only saves work", "statement": "Attaching a parameter dependence object that never denies an actual dependence changes none of the computed sensitivities.", "quantifier": "all systems, parameters and dependence objects", "why_tests_cant": "all dependence objects", "anchors": ["src/base/assembly_base.cpp: attach_elem_parameter_dependence_object, calculate_output_direct_sensitivity", "src/base/nonlinear_implicit_assembly.cpp: sensitivity_assemble"]}
{"id": "C113", "title": "The multi-parameter adjoint sensitivity equals the single ones", "statement": "For every list of parameters the i-th entry computed by calculate_output_adjoint_sensitivity_multiple_parameters_no_direct is the value calculate_output_adjoint_sensitivity gives for that parameter without the partial derivative of the output; with it, the two parts add up.", "quantifier": "all lists of parameters, including repeated ones", "why_tests_cant": "lists of any length", "anchors": ["src/base/assembly_base.cpp: calculate_output_adjoint_sensitivity, calculate_output_adjoint_sensitivity_multiple_parameters_no_direct"]}
{"id": "C114", "title": "The assembled Jacobian is the derivative of the assembled residual", "statement": "For every direction that respects the constraints, the product with the assembled Jacobian is the directional derivative of the assembled residual on unconstrained dofs; rows of constrained dofs vanish exactly on the directions that respect the constraint.", "quantifier": "all systems, solutions and admissible directions", "why_tests_cant": "all systems and directions", "anchors": ["src/base/nonlinear_implicit_assembly.cpp: residual_and_jacobian", "src/base/assembly_base.cpp: add_to_matrix and diagonal subdomains"]}
{"id": "C115", "title": "Retrieved eigenpairs solve the assembled eigenproblem with unit norm", "statement": "After every successful eigenproblem_solve, every pair returned by get_eigenpair is an eigenpair of the assembled matrices on the free dofs, has a real eigenvalue and satisfies x'Bx = 1, also when the solver works on the exchanged pencil; every converged pair can be retrieved.", "quantifier": "all meshes, element matrices, constraints, exact eigensolvers and both orderings of the pencil", "why_tests_cant": "all pencils", "anchors": ["src/base/nonlinear_system.cpp: eigenproblem_solve, get_eigenpair", "src/base/eigenproblem_assembly.cpp"]}
{"id": "C116", "title": "Eigenvalue sensitivities are derivatives of the eigenvalues", "statement": "For symmetric element matrices that are differentiable in the parameter and every differentiable branch of eigenpairs through a computed pair, the reported sensitivity is the derivative of the eigenvalue along the branch.", "quantifier": "all symmetric eigenproblems, parameters, requested indices and differentiable branches", "why_tests_cant": "a statement about limits over all problems", "anchors": ["src/base/nonlinear_system.cpp: eigenproblem_sensitivity_solve", "src/base/eigenproblem_assembly.cpp: eigenproblem_sensitivity_assemble"]}
{"id": "C117", "title": "Sensitivities for several parameters can follow one eigenvalue analysis", "statement": "The sensitivities and eigenpairs obtained after an eigenvalue analysis do not depend on which sensitivity analyses were made in between.", "quantifier": "all sequences of sensitivity analyses and retrievals after one analysis", "why_tests_cant": "all histories of calls", "anchors": ["src/base/nonlinear_system.cpp: eigenproblem_sensitivity_solve, get_eigenpair", "examples/structural/example_5/example_5.cpp"]}
{"id": "C118", "title": "Eigenvectors respect the constraints", "statement": "In every eigenvector retrieved, constrained dofs have the values their constraint equations give them, and constrained dofs contribute no eigenvalues of their own.", "quantifier": "all meshes with Dirichlet and hanging-node constraints", "why_tests_cant": "all constraint rows", "anchors": ["src/base/nonlinear_system.cpp: get_eigenpair, initialize_condensed_dofs, eigenproblem_solve", "src/base/eigenproblem_assembly.cpp"]}
{"id": "C119", "title": "Every kind of eigenproblem and every list of indices is served", "statement": "eigenproblem_solve works for standard as well as generalized problems, and eigenproblem_sensitivity_solve returns the sensitivities of the requested eigenvalues in the requested order.", "quantifier": "all kinds of eigenproblem, all lists of indices", "why_tests_cant": "all lists of indices", "anchors": ["src/base/nonlinear_system.cpp: init_data, eigenproblem_solve, get_eigenpair, eigenproblem_sensitivity_solve"]}
{"id": "C120", "title": "The eigenproblem is posed on exactly the free dofs", "statement": "After initialize_condensed_dofs the eigenproblem is posed on the dofs that carry no constraint and no Dirichlet condition, each once and in ascending order.", "quantifier": "all meshes, constraint rows and Dirichlet sets", "why_tests_cant": "all constraint sets", "anchors": ["src/base/nonlinear_system.cpp: initialize_condensed_dofs"]}
{"id": "C121", "title": "A heat conduction element returns the weak form of its loads and material", "statement": "For every temperature, mesh, material and list of supported loads, the residual assembled by a heat conduction element is the weak form (conduction plus outflow through flux, convection, radiation, minus sources), whether or not the Jacobian is asked for; a load the element cannot apply is refused.", "quantifier": "all shape functions, quadrature rules, temperatures, material functions and lists of loads", "why_tests_cant": "all fields and loads", "anchors": ["src/heat_conduction/heat_conduction_elem_base.cpp: internal_residual, side_external_residual, volume_external_residual", "src/heat_conduction/heat_conduction_nonlinear_assembly.cpp: elem_calculations"]}
{"id": "C122", "title": "Heat conduction Jacobian and sensitivity are derivatives of the residual", "statement": "Along every differentiable history of nodal temperatures and parameter, the rate of change of the element residual is the Jacobian times the temperature rate plus the parameter sensitivity, for every parameter of conductivity, thickness and loads.", "quantifier": "all differentiable histories, parameters and loads", "why_tests_cant": "a statement about limits over all fields", "anchors": ["src/heat_conduction/heat_conduction_elem_base.cpp: internal_residual, internal_residual_sensitivity, surface_*_residual_sensitivity", "src/heat_conduction/heat_conduction_nonlinear_assembly.cpp"]}
{"id": "C123", "title": "Heat storage and its Jacobians", "statement": "The transient part of the residual is the stored heat rate, with a consistent or a lumped capacity, whether or not Jacobians are asked for, and the two Jacobians with the sensitivity are its derivative along every differentiable history.", "quantifier": "all temperatures, rates, capacities, both capacity forms, all differentiable histories", "why_tests_cant": "a statement about limits over all fields", "anchors": ["src/heat_conduction/heat_conduction_elem_base.cpp: velocity_residual, velocity_residual_sensitivity", "src/heat_conduction/heat_conduction_transient_assembly.cpp: elem_calculations"]}
{"id": "C124", "title": "Heat balance, symmetry and definiteness of the heat conduction element", "statement": "The nodal residuals of an element sum to the stored heat rate plus the net outflow through its loads: conduction neither creates nor destroys heat, a uniform temperature conducts none, and lumping keeps the heat content. For symmetric, positive semidefinite conductivity and loads that take away more heat from a warmer body, the Jacobian is symmetric and positive semidefinite.", "quantifier": "all elements with shape functions that sum to one, all temperatures and loads", "why_tests_cant": "all fields and loads", "anchors": ["src/heat_conduction/heat_conduction_elem_base.cpp: internal_residual, velocity_residual, surface_convection_residual, surface_radiation_residual"]}
{"id": "C125", "title": "Moving a boundary changes the heat residual by the boundary integrand", "statement": "The topology sensitivity of an element is the integral over the moving boundary of the integrand of its volume terms times the normal velocity.", "quantifier": "all boundary velocity fields, temperatures, materials and volume loads", "why_tests_cant": "all fields", "anchors": ["src/heat_conduction/heat_conduction_elem_base.cpp: internal_residual_boundary_velocity, volume_external_residual_boundary_velocity, velocity_residual_boundary_velocity"]}
{"id": "C126", "title": "Internal forces of a continuum element are the gradient of its strain energy", "statement": "For a symmetric material matrix the internal force vector of a 3D element is the gradient of half the integral of strain times stress; for any material matrix it is work conjugate to the strain (small or Green-Lagrange); unused rotational unknowns receive no force, and the call fails only if the number of shape functions differs from the number of nodes.", "quantifier": "all displacements, virtual displacements, quadrature rules, shape functions and material matrices, both strain measures", "why_tests_cant": "all fields", "anchors": ["src/elasticity/solid_element_3d.cpp: internal_residual, initialize_green_lagrange_strain_operator"]}
{"id": "C127", "title": "The continuum element's Jacobian is the derivative of its internal force", "statement": "The displacement block is the exact directional derivative of the internal force, symmetric for a symmetric material and positive semidefinite for small strain with a semidefinite material; rotational unknowns get only a diagonal entry, 1e-20 times the largest diagonal entry.", "quantifier": "all displacements, directions, materials and quadrature rules", "why_tests_cant": "all fields", "anchors": ["src/elasticity/solid_element_3d.cpp: internal_residual"]}
{"id": "C128", "title": "Rigid motions of a continuum element cause no force", "statement": "With nonlinear strain, superposing a rotation and translation on any deformation rotates the internal forces and a rigid motion gives none; with linear strain an infinitesimal rigid motion gives none.", "quantifier": "all rotations, translations, deformations and materials", "why_tests_cant": "all motions", "anchors": ["src/elasticity/solid_element_3d.cpp: internal_residual, initialize_green_lagrange_strain_operator"]}
{"id": "C129", "title": "Internal forces of a continuum element are in equilibrium", "statement": "The nodal forces sum to zero, and their moments about any axis sum to zero, in the deformed position with nonlinear strain and in the original position otherwise.", "quantifier": "all displacements and materials, including unsymmetric ones", "why_tests_cant": "all fields", "anchors": ["src/elasticity/solid_element_3d.cpp: internal_residual"]}
{"id": "C130", "title": "Internal force sensitivity of a continuum element completes the total derivative", "statement": "Along any differentiable history of displacements and material parameter, the derivative of the internal force is the Jacobian times the displacement rate plus the vector given by the sensitivity call.", "quantifier": "all histories of displacement and material", "why_tests_cant": "all histories", "anchors": ["src/elasticity/solid_element_3d.cpp: internal_residual_sensitivity"]}
{"id": "C131", "title": "Thermal loads of a continuum element", "statement": "Internal plus thermal force is the gradient of the energy of the strain in excess of the thermal strain; the thermal Jacobian is its derivative; a displacement whose strain equals the thermal strain needs no force.", "quantifier": "all displacements, temperatures, materials and expansion coefficients", "why_tests_cant": "all fields", "anchors": ["src/elasticity/solid_element_3d.cpp: thermal_residual"]}
{"id": "C132", "title": "Pressure on a side of a continuum element", "statement": "The pressure vector does virtual work with the pressure times the normal displacement, has the resultant of the integrated pressure, its sensitivity is its derivative in the parameter, and follower forces are refused.", "quantifier": "all pressure fields, normals, quadrature rules and parameters", "why_tests_cant": "all fields", "anchors": ["src/elasticity/solid_element_3d.cpp: surface_pressure_residual, surface_pressure_residual_sensitivity"]}
{"id": "C133", "title": "Inertia of a continuum element", "statement": "The inertial force is the mass matrix times the acceleration, added to the vector; for a rigid acceleration the forces add up to the total mass times that acceleration, for consistent and for diagonal mass.", "quantifier": "all accelerations, densities and quadrature rules", "why_tests_cant": "all fields", "anchors": ["src/elasticity/solid_element_3d.cpp: inertial_residual"]}
{"id": "C134", "title": "Reported stress of a continuum element", "statement": "For every quadrature point the stress output holds the strain of the displacement and the stress that the material gives to it.", "quantifier": "all displacements, materials and loads", "why_tests_cant": "all fields", "anchors": ["src/elasticity/solid_element_3d.cpp: calculate_stress"]}
{"id": "C135", "title": "Local axes of beams and plates", "statement": "The local axes of a beam or plate in space are orthonormal and right-handed, the first along the first edge, the first node is the origin, lengths and angles are kept, a plate lies in its x-y plane with its normal as third axis, the y vector of a beam section lies in the x-y plane with positive y; axes exist exactly for elements that are not degenerate.", "quantifier": "all node positions, numbers of nodes and section orientations", "why_tests_cant": "all positions in space", "anchors": ["src/mesh/geom_elem.cpp: _init_local_elem, _init_local_elem_1d, _init_local_elem_2d"]}
{"id": "C136", "title": "Points and vectors change between local and global axes without loss", "statement": "The local coordinates of a node map back to the node, transforming a vector to one system and back returns it, inner products and distances are kept.", "quantifier": "all elements with local axes, points and vectors", "why_tests_cant": "all points and vectors", "anchors": ["src/mesh/geom_elem.cpp: transform_point_to_global_coordinate, transform_vector_to_global_coordinate, transform_vector_to_local_coordinate"]}
{"id": "C137", "title": "Unknowns change between local and global axes without loss", "statement": "Translations and rotations of every node are expressed in the local axes and back without loss; the work of forces, the symmetry and definiteness of matrices are kept, and a consistent local Jacobian gives a consistent global one.", "quantifier": "all 1D and 2D elements, numbers of nodes, vectors and matrices", "why_tests_cant": "all elements and vectors", "anchors": ["src/elasticity/structural_element_base.cpp: transform_matrix_to_global_system, transform_vector_to_local_system, transform_vector_to_global_system, set_solution"]}
{"id": "C138", "title": "Inertia of beams and plates", "statement": "The inertial force is the mass matrix times the acceleration, does virtual power with the local inertia, the matrix is symmetric, a rigid acceleration needs total mass times acceleration, and the sensitivity is the derivative in the parameter; for consistent and diagonal mass and in any axes.", "quantifier": "all accelerations, inertia fields, quadrature rules and axes", "why_tests_cant": "all fields", "anchors": ["src/elasticity/structural_element_base.cpp: inertial_residual, inertial_residual_sensitivity"]}
{"id": "C139", "title": "Linearised residual of structural elements", "statement": "The linearised internal residual is the Jacobian times the given perturbation.", "quantifier": "all elements and perturbations", "why_tests_cant": "all perturbations", "anchors": ["src/elasticity/structural_element_base.cpp: linearized_internal_residual"]}
{"id": "C140", "title": "The internal force of a beam derives from its energy", "statement": "The internal force of a beam or bar element is the derivative of its stored energy (axial strain with the von Karman terms, twist, bending and shear strain) with respect to the nodal displacements and rotations, in any axes, with any bending model.", "quantifier": "all beam elements, section stiffness fields, quadrature rules and states", "why_tests_cant": "all states", "anchors": ["src/elasticity/structural_element_1d.cpp: internal_residual, _internal_residual_operation", "src/elasticity/timoshenko_bending_operator.cpp: calculate_transverse_shear_residual", "src/elasticity/bernoulli_bending_operator.h: initialize_bending_strain_operator_for_yz"]}
{"id": "C141", "title": "The Jacobian of a beam is the derivative of its internal force", "statement": "The Jacobian added by the internal residual of a beam is the derivative of the force it adds, and is symmetric.", "quantifier": "all beam elements, section stiffness fields, quadrature rules and states", "why_tests_cant": "all states", "anchors": ["src/elasticity/structural_element_1d.cpp: internal_residual"]}
{"id": "C142", "title": "Parameter sensitivity of a beam", "statement": "The sensitivity of the internal force and of its Jacobian with respect to a section parameter is the derivative of force and Jacobian in that parameter; parameters the section does not depend on give none.", "quantifier": "all parameters, sections and states", "why_tests_cant": "all parameters", "anchors": ["src/elasticity/structural_element_1d.cpp: internal_residual_sensitivity"]}
{"id": "C143", "title": "Change of the beam Jacobian along a state sensitivity", "statement": "The matrix for the change of the Jacobian with the solution is the derivative of the Jacobian along the solution sensitivity.", "quantifier": "all states and sensitivities", "why_tests_cant": "all states", "anchors": ["src/elasticity/structural_element_1d.cpp: internal_residual_jac_dot_state_sensitivity"]}
{"id": "C144", "title": "Initial stress and thermal stress in beams", "statement": "Prestress and temperature add the forces whose work on the strains of the beam is that of the given axial force, torque and bending moments, and the matrix they add is the derivative of these forces.", "quantifier": "all beams, stress fields, temperatures and states", "why_tests_cant": "all fields", "anchors": ["src/elasticity/structural_element_1d.cpp: prestress_residual, thermal_residual"]}
{"id": "C145", "title": "Parameter sensitivity of initial stress and thermal stress in beams", "statement": "The sensitivities of the prestress and thermal forces and of their matrices are their derivatives in the parameter.", "quantifier": "all parameters and states", "why_tests_cant": "all parameters", "anchors": ["src/elasticity/structural_element_1d.cpp: prestress_residual_sensitivity, thermal_residual_sensitivity"]}
{"id": "C146", "title": "Kinematics of beam bending", "statement": "The strain of a fibre is linear in its position in the section, the Bernoulli operator is exact for every cubic deflection with theta_z = v' and theta_y = -w', and a small rigid motion gives no internal force (with the von Karman strain: a translation and a roll about the axis).", "quantifier": "all cubics, fibres and rigid motions", "why_tests_cant": "all motions", "anchors": ["src/elasticity/timoshenko_bending_operator.cpp: initialize_bending_strain_operator_for_yz", "src/elasticity/bernoulli_bending_operator.h: initialize_bending_strain_operator_for_yz", "src/elasticity/structural_element_1d.cpp: internal_residual"]}
{"id": "C147", "title": "Pressure on the end of a beam", "statement": "The pressure on an end does the work of pressure times section area along the outward normal, has that resultant and no moment, its sensitivity is the derivative in the parameter, and follower forces are refused.", "quantifier": "all pressures, areas and axes", "why_tests_cant": "all fields", "anchors": ["src/elasticity/structural_element_1d.cpp: surface_pressure_residual, surface_pressure_residual_sensitivity"]}
{"id": "C148", "title": "The internal force of a plate derives from its energy", "statement": "The internal force of a membrane or plate element is the derivative of its stored energy (Green-Lagrange strain of the in-plane displacements, von Karman terms of the deflection, curvatures of the Mindlin or discrete Kirchhoff model, transverse shear) with respect to the nodal displacements and rotations, in any axes.", "quantifier": "all plate elements (DKT: triangles in a plane of constant z, numbered counterclockwise), section stiffness fields, quadrature rules and states", "why_tests_cant": "all states", "anchors": ["src/elasticity/structural_element_2d.cpp: internal_residual, _internal_residual_operation", "src/elasticity/mindlin_bending_operator.cpp: _transverse_shear_operations", "src/elasticity/dkt_bending_operator.h: _calculate_dkt_shape_functions"]}
{"id": "C149", "title": "The Jacobian of a plate is the derivative of its internal force", "statement": "The Jacobian added by the internal residual of a plate is the derivative of the force it adds, and is symmetric.", "quantifier": "all plate elements, section stiffness fields, quadrature rules and states", "why_tests_cant": "all states", "anchors": ["src/elasticity/structural_element_2d.cpp: internal_residual, _internal_residual_operation"]}
{"id": "C150", "title": "Parameter sensitivity of a plate", "statement": "The sensitivity of the internal force of a plate and of its Jacobian with respect to a section parameter is the derivative of force and Jacobian in that parameter; parameters the section does not depend on give none.", "quantifier": "all parameters, sections and states", "why_tests_cant": "all parameters", "anchors": ["src/elasticity/structural_element_2d.cpp: internal_residual_sensitivity"]}
{"id": "C151", "title": "Change of the plate Jacobian along a state sensitivity", "statement": "The matrix for the change of the plate Jacobian with the solution is the derivative of the Jacobian along the solution sensitivity.", "quantifier": "all states and sensitivities", "why_tests_cant": "all states", "anchors": ["src/elasticity/structural_element_2d.cpp: internal_residual_jac_dot_state_sensitivity"]}
{"id": "C152", "title": "Initial stress and thermal stress in plates", "statement": "Prestress and temperature add the forces whose work on the strains of the plate is that of the given membrane forces and moments, the matrix they add is the derivative of these forces, and their sensitivities are the derivatives in the parameter.", "quantifier": "all plates, stress fields, temperatures, parameters and states", "why_tests_cant": "all fields", "anchors": ["src/elasticity/structural_element_2d.cpp: prestress_residual, prestress_residual_sensitivity, thermal_residual, thermal_residual_sensitivity"]}
{"id": "C153", "title": "Kinematics of plate bending", "statement": "The bending strain of a fibre is linear in its position, a small rigid motion gives no internal force (with the nonlinear strain: a translation), and the discrete Kirchhoff triangle reproduces every deflection of constant curvature.", "quantifier": "all fibres, rigid motions, triangles and quadratic deflections", "why_tests_cant": "all motions and triangles", "anchors": ["src/elasticity/mindlin_bending_operator.cpp: initialize_bending_strain_operator_for_z", "src/elasticity/dkt_bending_operator.h: initialize_bending_strain_operator_for_z, _get_edge_normal_sine_cosine", "src/elasticity/structural_element_2d.cpp: internal_residual"]}
{"id": "C154", "title": "Surface pressure on plates and beams", "statement": "A pressure on a beam or plate adds the nodal forces that do the work of the pressure acting against the transverse axis of the element, on every displacement and in any axes; it has that resultant and no nodal moments; its sensitivity, its boundary-velocity term and its linearised and frequency-domain forms are those of the pressure derivative, of the swept strip and of the pressure disturbance; solid elements and follower forces are refused.", "quantifier": "all pressures, quadrature rules, shape functions, axes and displacements", "why_tests_cant": "all fields", "anchors": ["src/elasticity/structural_element_base.cpp: surface_pressure_residual, surface_pressure_residual_sensitivity, surface_pressure_boundary_velocity, linearized_surface_pressure_residual, linearized_frequency_domain_surface_pressure_residual"]}
{"id": "C155", "title": "Traction and pressure on the edge of a plate", "statement": "A traction on an edge adds the nodal forces with the work of traction times thickness, a pressure that of pressure times thickness along the edge normal; sensitivities are derivatives in the parameter of load and thickness; follower forces are refused.", "quantifier": "all tractions, pressures, thicknesses and axes", "why_tests_cant": "all fields", "anchors": ["src/elasticity/structural_element_2d.cpp: surface_traction_residual, surface_traction_residual_sensitivity, surface_pressure_residual, surface_pressure_residual_sensitivity"]}
{"id": "C156", "title": "Piston theory pressure", "statement": "In supersonic flow the pressure is the piston-theory polynomial of the chosen order in the downwash, the derivative functions return its partial derivatives in slope and velocity, the derivative members return the total and mixed derivatives in every flow parameter, and at Mach numbers up to one no finite number is returned.", "quantifier": "all orders, flows, slopes, velocities and parameters", "why_tests_cant": "all real inputs", "anchors": ["src/elasticity/piston_theory_boundary_condition.cpp: PistonTheoryPressure, PistonTheoryPressureXDerivative, PistonTheoryPressureXdotDerivative, PistonTheoryBoundaryCondition"]}
{"id": "C157", "title": "Piston theory load on plates", "statement": "The load on a plate is the piston-theory pressure of its slope along the flow and its normal velocity; the damping and stiffness matrices are its derivatives in velocity and displacement, and the sensitivities its derivatives in the flow parameters.", "quantifier": "all plates, flows, orders, states and directions", "why_tests_cant": "all states", "anchors": ["src/elasticity/structural_element_2d.cpp: piston_theory_residual, piston_theory_residual_sensitivity"]}
{"id": "C158", "title": "Piston theory load on beams", "statement": "The load on a beam is the piston-theory pressure of its slope and velocity; the damping and stiffness matrices are its derivatives in velocity and displacement, and the sensitivities its derivatives in the flow parameters.", "quantifier": "all beams, flows, orders and states", "why_tests_cant": "all states", "anchors": ["src/elasticity/structural_element_1d.cpp: piston_theory_residual, piston_theory_residual_sensitivity"]}
{"id": "C159", "title": "Every load of an element is applied exactly once", "statement": "The external force of an element is the sum, over its sides, the boundary ids of each side and the loads with that id (or over the loads of its subdomain), of what each load gives; the order of adding loads is immaterial; a load of a type that is not supported is an error; the sensitivity of the sum is the sum of the sensitivities.", "quantifier": "all meshes, boundary id assignments and load sets", "why_tests_cant": "all assignments", "anchors": ["src/elasticity/structural_element_base.cpp: side_external_residual, volume_external_residual, side_external_residual_sensitivity, linearized_side_external_residual", "src/mesh/geom_elem.cpp: external_side_loads_for_quadrature_elem"]}
{"id": "C160", "title": "Beam stresses are those at the corners of the section", "statement": "The stress output of a beam holds, for every quadrature point, the axial strain (without the free thermal strain) and stress at the four corners of the rectangular section, including bending, offsets and, for the nonlinear strain, the von Karman terms; the stored derivatives are those of these values with respect to the displacements in global axes; the stored sensitivity is the total derivative when material, temperature, expansion coefficient, dimensions, offsets and solution depend on the parameter; a beam free to expand has no stress; the weights of the points of an element add up to its length; values are entered once and before derivatives.", "quantifier": "all beams, bending models, states, histories, parameters", "why_tests_cant": "universally quantified over states and parameters", "anchors": ["src/elasticity/structural_element_1d.cpp: calculate_stress", "src/elasticity/stress_output_base.cpp: add_stress_strain_at_qp_location, get_stress_strain_data_for_elem_at_qp"]}
{"id": "C161", "title": "Plate stresses are those at the skins", "statement": "The stress output of a plate holds, for every quadrature point, the in-plane strain (without the free thermal strain) and stress at the upper and lower skin; the stored derivatives are those with respect to the displacements in global axes, the stored sensitivities are total derivatives; a plate free to expand has no stress; the weights of the points add up to the area; values are entered once and before derivatives.", "quantifier": "all plates, bending models, linear and nonlinear strain, states, histories, parameters", "why_tests_cant": "universally quantified over states and parameters", "anchors": ["src/elasticity/structural_element_2d.cpp: calculate_stress", "src/elasticity/stress_output_base.cpp: add_stress_strain_at_qp_location, get_stress_strain_data_for_elem_at_qp"]}
{"id": "C162", "title": "Boundary velocity and temperature contributions to plate stresses", "statement": "For a moving side the stress data holds stress and strain at the points of the side with weights adding up to the rate of change of the area, for every moving side of an element; the derivatives with respect to nodal temperatures are those of stress and strain.", "quantifier": "all plates, sides, velocities, temperature histories", "why_tests_cant": "universally quantified over states and histories", "anchors": ["src/elasticity/structural_element_2d.cpp: calculate_stress_boundary_velocity, calculate_stress_temperature_derivative", "src/elasticity/stress_output_base.cpp: add_stress_strain_at_boundary_qp_location"]}
{"id": "C163", "title": "Volume of the level-set material", "statement": "The volume output is the measure of the part of the domain where the level set function is positive: it lies between zero and the measure of the domain, grows with the level set function, does not change when the function is scaled, and volume and void add up to the domain; it is the same for every distribution of the elements over processes; its sensitivity is the flux of the normal speed (change of the level set function over its slope) through the sides on the interface, not negative when the function is raised and independent of the scale of the function; a flat spot or a parameter of another kind is not answered with a number.", "quantifier": "all meshes, distributions, level set functions, velocities", "why_tests_cant": "all fields and distributions", "anchors": ["src/level_set/level_set_elem_base.cpp: volume, volume_boundary_velocity_on_side", "src/level_set/level_set_volume_output.cpp: evaluate, evaluate_topology_sensitivity, output_total"]}
{"id": "C164", "title": "Homogenised volume fraction", "statement": "The volume fraction of an element is the average of the smoothed step of the level set function: strictly between zero and one, growing with the function, with fractions of a field and its negative adding up to one, unchanged when the function and the smoothing width are scaled together; its sensitivity is the exact derivative; a zero width is refused.", "quantifier": "all elements, nodal values, widths and directions", "why_tests_cant": "all nodal values", "anchors": ["src/level_set/level_set_elem_base.cpp: homogenized_volume_fraction, homogenized_volume_fraction_sensitivity"]}
{"id": "C165", "title": "Perimeter of the level-set material", "statement": "The perimeter output is the integral of the smoothed delta function of the level set function: positive, symmetric under exchange of material and void, the rate of the smoothed volume when the function is raised, and a property of the region alone; its sensitivity is the exact derivative, summed over all elements and for each element.", "quantifier": "all meshes, distributions, level set functions and directions", "why_tests_cant": "all fields", "anchors": ["src/level_set/level_set_elem_base.cpp: perimeter, perimeter_sensitivity", "src/level_set/level_set_perimeter_output.cpp: evaluate, evaluate_topology_sensitivity, output_total"]}
{"id": "C166", "title": "Level set propagation", "statement": "With propagation switched on the element residual is the weighted residual of phi_t - Vn |grad phi| = 0 with streamline upwinding and discontinuity capturing: the entries add up to the motion with the normal speed, the stabilisation adds nothing in total, the rate term is linear with its matrix the exact derivative, the Jacobian is the derivative of the residual, a field moving exactly with the normal speed satisfies the equations, and every field can be evaluated.", "quantifier": "all elements, fields, speeds and times", "why_tests_cant": "all fields", "anchors": ["src/level_set/level_set_elem_base.cpp: internal_residual, velocity_residual, _calculate_velocity_and_source, _tau, _dc_operator"]}
{"id": "C167", "title": "Level set reinitialisation", "statement": "With propagation switched off the residual drives the field towards slope one with a smoothed sign of the reference field as speed: bounded by one and with the sign of the reference, no change where the reference vanishes, total zero for a signed distance function, which is a steady state; a reference of the wrong size is refused and the normal speed is not used.", "quantifier": "all elements, fields and reference fields", "why_tests_cant": "all fields", "anchors": ["src/level_set/level_set_elem_base.cpp: internal_residual, _calculate_velocity_and_source, set_reference_solution_for_initialization"]}
{"id": "C168", "title": "Velocity and normal of the interface", "statement": "The boundary velocity is the unique velocity along the gradient that keeps a point on its level, the slowest velocity that does, independent of the scale of the level set function, and defined exactly where the gradient is not zero; the normal has length one and points away from the material, its derivative is the exact derivative and orthogonal to it.", "quantifier": "all gradients, rates and histories", "why_tests_cant": "all real inputs", "anchors": ["src/level_set/level_set_boundary_velocity.cpp: velocity, normal_at_point, normal_derivative_at_point"]}
{"id": "C169", "title": "Nearest point on the interface", "statement": "The search for the nearest point on the interface ends for every level set function and linear solver; for a plane interface it returns a point between the start and the foot of the perpendicular, leaves interface points where they are, and the point returned is on the interface.", "quantifier": "all level set functions, solvers and points", "why_tests_cant": "universally quantified over functions and points", "anchors": ["src/level_set/level_set_boundary_velocity.cpp: search_nearest_interface_point_old, _evaluate_point_search_obj"]}
{"id": "C170", "title": "Element operations of the level set transient assembly", "statement": "The element operations deliver internal and rate residuals with their matrices, each from a clean start, for every element whose residuals can be evaluated.", "quantifier": "all elements, states, build modes", "why_tests_cant": "all states", "anchors": ["src/level_set/level_set_transient_assembly.cpp: elem_calculations", "src/level_set/level_set_elem_base.cpp: side_external_residual, volume_external_residual"]}
{"id": "C171", "title": "A mesh function shows the vector it was given", "statement": "After init with its own copy a mesh function evaluates to the interpolation of the vector as it was at that call, whatever happens to the vector later; sharing the vector shows its present contents and needs it to stay alive; no call changes the caller's vectors; before init, after clear and outside the mesh no number is returned; a second init is refused without effect, and a failed init can be repeated.", "quantifier": "all histories of init, clear, quadrature overrides, writes and releases of vectors", "why_tests_cant": "needs every interleaving of calls with changes of the vectors", "anchors": ["src/base/mesh_field_function.cpp: init, clear, operator(), set_element_quadrature_point_solution, _init_sol_func"]}
{"id": "C172", "title": "Sensitivities, gradients and perturbations of a mesh function", "statement": "Each parameter has its own sensitivity, that of the vector given for it, independent of calls for other parameters, and it is the derivative of the value; unknown parameters are refused; a failed initialisation leaves no trace; the gradient is that of the interpolation; a quadrature point solution overrides the value only; a perturbation can be provided.", "quantifier": "all histories, parameters, vectors and points", "why_tests_cant": "all histories", "anchors": ["src/base/mesh_field_function.cpp: init_sens, derivative, derivative_gradient, gradient, perturbation, perturbation_gradient"]}
{"id": "C173", "title": "Complex mesh functions", "statement": "After init the value has the interpolations of the two vectors, as they were at that call, as real and imaginary parts, and likewise the perturbation, independently of each other; after clear neither is available; the caller's vectors are not changed.", "quantifier": "all histories of init, init_perturbation, clear, writes and releases", "why_tests_cant": "all histories", "anchors": ["src/base/complex_mesh_field_function.cpp: init, init_perturbation, clear, operator(), perturbation"]}
{"id": "C174", "title": "Heaviside homogenised density", "statement": "In an element the density is the average of the smoothed step of the level set function at the last initialisation: strictly between zero and one and constant on the element; its derivative is exact inside and outside of the influence of the parameter; it can be evaluated everywhere in the mesh; a second initialisation without clear is refused; the derivative belongs to the density returned.", "quantifier": "all meshes, distributions, level set functions, widths, parameters and histories", "why_tests_cant": "all histories and fields", "anchors": ["src/level_set/heaviside_elem_homogenization_function.cpp: initialize_element_volume_fractions, initialize_element_volume_fraction_sensitivity", "src/level_set/homogenized_density_function_base.cpp: operator(), derivative"]}
{"id": "C175", "title": "Density from intersected elements", "statement": "After initialisation the density at a point is the fraction of its element on the positive side of the level set function, and its derivative the derivative of that fraction.", "quantifier": "all meshes, level set functions and histories", "why_tests_cant": "all meshes", "anchors": ["src/level_set/intersected_elem_homogenization_function.cpp: initialize_element_volume_fractions, initialize_element_volume_fraction_sensitivity"]}
{"id": "C176", "title": "Rows tying a slave node to its masters", "statement": "The constraint row of a slave gives it the weighted mean of the motions of its masters: the weights are positive, sum up to one and are larger for closer masters; translations of the masters are followed exactly; a rigid motion of the masters satisfies the rows when the slave moves with it.", "quantifier": "all positions, weights, numbers of masters and motions", "why_tests_cant": "all geometries", "anchors": ["src/elasticity/kinematic_coupling_constraint.cpp: get_dof_constraint_row, initialize_dof_constraint_rows"]}
{"id": "C177", "title": "Registry of coupling constraints", "statement": "Every constraint added before initialisation ends up in the dof map with all its rows, a second constraint on the same slave node is refused, an addition after initialisation is refused, and the dof map holds after the call what it held before plus the new rows.", "quantifier": "all sequences of additions, dof maps and build modes", "why_tests_cant": "all histories", "anchors": ["src/elasticity/kinematic_coupling.cpp: add_master_and_slave, add_dof_constraints", "src/mesh/mesh_coupling_base.cpp"]}
{"id": "C178", "title": "Search for the masters of a slave", "statement": "Coupling by boundary or subdomain hands on every node of the slave boundary exactly once, with masters that are nodes of the master set within the search radius; slaves without a master stay free.", "quantifier": "all meshes, boundary ids, radii and numberings", "why_tests_cant": "all meshes", "anchors": ["src/mesh/mesh_coupling_base.cpp: add_master_and_slave_boundary_coupling, add_slave_boundary_and_master_subdomain_coupling"]}
{"id": "C179", "title": "Rigid body modes given to the solver", "statement": "The near null space handed to the solver consists of the three translations and three rotations of the mesh: it is not empty, needs the six unknowns by name, the modes are independent and are infinitesimally rigid.", "quantifier": "all meshes, positions and numbers of unknowns", "why_tests_cant": "all meshes", "anchors": ["src/elasticity/structural_near_null_vector_space.cpp: operator()"]}
{"id": "C180", "title": "Compliance output", "statement": "The compliance output is the work of the applied loads on the displacement: additive over elements and processes, linear in the load, equal to the work of the internal forces at equilibrium and to twice the strain energy for linear structures.", "quantifier": "all meshes, loads, solutions and distributions", "why_tests_cant": "all solutions", "anchors": ["src/elasticity/compliance_output.cpp: evaluate, output_total"]}
{"id": "C181", "title": "Derivatives of the compliance", "statement": "The derivative for the adjoint and the sensitivities of the compliance output are the derivatives of the work of the loads, so that direct and adjoint totals are its total derivative.", "quantifier": "all meshes, loads, solutions, parameters", "why_tests_cant": "all solutions", "anchors": ["src/elasticity/compliance_output.cpp: evaluate_sensitivity, evaluate_topology_sensitivity, output_derivative_for_elem"]}
{"id": "C182", "title": "Unknowns of the void switched off", "statement": "The constraints for level sets set to zero exactly the unknowns of which every element is completely in the void, on every distribution of the mesh, without replacing constraints that are there, and are unchanged by a second call or another order of elements.", "quantifier": "all meshes, distributions, level set functions, options and existing constraints", "why_tests_cant": "all meshes", "anchors": ["src/level_set/level_set_constrain_dofs.cpp: constrain"]}
{"id": "C183", "title": "Unknowns outside of the indicator switched off", "statement": "The constraints for indicator functions set to zero exactly the unknowns of which every element is completely outside of the region marked by the indicator, on every distribution.", "quantifier": "all meshes, distributions, indicators and existing constraints", "why_tests_cant": "all meshes", "anchors": ["src/level_set/indicator_function_constrain_dofs.cpp: constrain"]}
{"id": "C184", "title": "Balances of the flow element", "statement": "In the semi-discrete equations of a compressible flow the interior of an element creates no mass, momentum or energy whatever the stabilisation and shock capturing, the rate term sums up to the rate of the contents, and walls at rest pass no mass and no energy: in a closed box that satisfies the equations mass and energy are constant and the momentum changes by the pressure on the walls.", "quantifier": "all flows, stabilisations, shock capturing coefficients, dimensions and quadratures", "why_tests_cant": "all flows and quadratures", "anchors": ["src/fluid/conservative_fluid_element_base.cpp: internal_residual, velocity_residual, symmetry_surface_residual, slip_wall_surface_residual"]}
{"id": "C185", "title": "Matrix of the interior of the flow element", "statement": "The matrix returned with the interior residual of the flow element, and with its rate term, is the derivative of the residual with respect to the solution and to the rate.", "quantifier": "all flows, families of flows, stabilisation matrices and shock capturing coefficients", "why_tests_cant": "all families of flows", "anchors": ["src/fluid/conservative_fluid_element_base.cpp: internal_residual, linearized_internal_residual, velocity_residual", "src/fluid/fluid_elem_base.cpp: calculate_differential_operator_matrix"]}
{"id": "C186", "title": "Matrix of the sides of the flow element", "statement": "The matrix returned with the residual of the sides of the flow element (symmetry walls, slip walls with and without motion, far field) is the derivative of that residual with respect to the solution; a side can be evaluated exactly when its flow is physical and its data are complete.", "quantifier": "all flows, wall motions, flows far away and lists of sides", "why_tests_cant": "all flows and families of flows", "anchors": ["src/fluid/conservative_fluid_element_base.cpp: side_external_residual, symmetry_surface_residual, slip_wall_surface_residual, far_field_surface_residual"]}
{"id": "C187", "title": "Far field of the flow element", "statement": "At the flow far away the far field takes the flux of the flow; where the flow leaves at the speed of sound or faster the flow far away has no influence, where it enters so fast only the flow far away is carried in; and a uniform flow leaves no residual on any mesh whose quadrature satisfies the divergence theorem.", "quantifier": "all flows, normals, meshes, stabilisations and shock capturing coefficients", "why_tests_cant": "all flows and meshes", "anchors": ["src/fluid/conservative_fluid_element_base.cpp: far_field_surface_residual, internal_residual"]}
{"id": "C188", "title": "Force on a boundary in a flow", "statement": "The integrated force of an element is the pressure force on its sides on the chosen boundary in the chosen direction; its derivative with respect to the solution is the gradient of the force and its sensitivity the derivative along the sensitivity of the solution; the direction is scaled to length one.", "quantifier": "all flows, sets of sides and directions", "why_tests_cant": "all flows and families of flows", "anchors": ["src/fluid/integrated_force_output.cpp: evaluate, evaluate_sensitivity, output_derivative_for_elem", "src/fluid/conservative_fluid_element_base.cpp: side_integrated_force, side_integrated_force_sensitivity"]}
{"id": "C189", "title": "Sensitivity of the sides of the flow element", "statement": "The sensitivity of the residual of the sides with respect to a parameter is its derivative when the flight condition changes with that parameter, in every dimension; walls contribute nothing.", "quantifier": "all parameters, flight conditions, dimensions and flows", "why_tests_cant": "all flight conditions", "anchors": ["src/fluid/conservative_fluid_element_base.cpp: side_external_residual_sensitivity, far_field_surface_residual_sensitivity"]}
{"id": "C190", "title": "Roots of the reduced-frequency flutter equations", "statement": "A root reported as physical by the reduced-frequency (UG) solver is a harmonic motion of the structure at the reported speed, structural damping and frequency, and every harmonic motion at a positive speed is reported.", "quantifier": "all mass, stiffness and aerodynamic matrices of any size, eigenvalues and eigenvectors", "why_tests_cant": "all eigenproblems", "anchors": ["src/aeroelasticity/ug_flutter_solver.cpp: _initialize_matrices", "src/aeroelasticity/ug_flutter_root.cpp: init"]}
{"id": "C191", "title": "Derivatives of the reduced-frequency eigenvalues", "statement": "The derivative of an eigenvalue of the reduced-frequency equations with respect to a parameter, or to the reduced frequency, is the derivative of the eigenvalue along any differentiable branch.", "quantifier": "all families of matrices of any size and differentiable branches", "why_tests_cant": "all families", "anchors": ["src/aeroelasticity/ug_flutter_solver.cpp: calculate_sensitivity, _initialize_matrix_sensitivity_for_param, _initialize_matrix_sensitivity_for_reduced_freq"]}
{"id": "C192", "title": "Crossover points of the reduced-frequency sweep", "statement": "The sweep analyses evenly spaced reduced frequencies from the highest to the lowest, and the crossover points recorded are exactly the sign changes of the damping of the modes between neighbours, plus the divergence points at zero frequency, in order of speed and each once.", "quantifier": "all eigen-solvers, ranges, numbers of divisions and modes", "why_tests_cant": "all sweeps", "anchors": ["src/aeroelasticity/ug_flutter_solver.cpp: scan_for_roots, _identify_crossover_points"]}
{"id": "C193", "title": "Critical root of the reduced-frequency solver", "statement": "The search stays in its bracket and reports success exactly on convergence; the critical root is the lowest speed of all the crossovers, at a positive speed, and the search for it ends.", "quantifier": "all eigen-solvers, sweeps, tolerances, iteration limits and histories of calls", "why_tests_cant": "all histories", "anchors": ["src/aeroelasticity/ug_flutter_solver.cpp: find_next_root, find_critical_root, _bisection_search"]}
{"id": "C194", "title": "Eigenproblem of the PK solver", "statement": "The PK solver's matrices describe the free motions of the structure in the flow: every eigenvector gives a solution of the second-order equations with the reported exponent.", "quantifier": "all structures, speeds and reduced frequencies", "why_tests_cant": "all eigenproblems", "anchors": ["src/aeroelasticity/pk_flutter_solver.cpp: _initialize_matrices, _analyze", "src/aeroelasticity/pk_flutter_root.cpp: init"]}
{"id": "C195", "title": "Roots stored by the PK solver", "statement": "After a scan over speeds and reduced frequencies the root stored for each mode at each speed is the one whose own frequency is closest to the reduced frequency of its analysis.", "quantifier": "all eigen-solvers, ranges and histories of insertions", "why_tests_cant": "all histories of insertions", "anchors": ["src/aeroelasticity/pk_flutter_solver.cpp: scan_for_roots, _insert_new_solution"]}
{"id": "C196", "title": "Layout of the coupled unknowns", "statement": "Every entry of the coupled vector belongs to exactly one unknown of exactly one discipline, each process owns the entries of its own unknowns, and copying solutions into the coupled vector and back returns them unchanged.", "quantifier": "all numbers of processes, disciplines and unknowns per process", "why_tests_cant": "all partitions", "anchors": ["src/solver/multiphysics_nonlinear_solver.cpp: solve"]}
{"id": "C197", "title": "Coupled residual", "statement": "The residual callback of the coupled solver returns, in the block of each discipline, the discipline's residual at the constrained solutions of all, with the data computed from them, and the norms of the blocks and of the whole; the vector it is given is left unchanged.", "quantifier": "all numbers of disciplines and processes, all solutions and histories of earlier calls", "why_tests_cant": "all states and histories", "anchors": ["src/solver/multiphysics_nonlinear_solver.cpp: __mast_multiphysics_petsc_snes_residual"]}
{"id": "C198", "title": "Coupled Jacobian", "statement": "The product of the nested Jacobian with a direction is the derivative of the coupled equations in that direction, and leaves the direction and the matrices unchanged.", "quantifier": "all numbers of disciplines, solutions, directions and histories", "why_tests_cant": "all directions and histories", "anchors": ["src/solver/multiphysics_nonlinear_solver.cpp: __mast_multiphysics_petsc_snes_jacobian, __mast_multiphysics_petsc_mat_mult, solve"]}
{"id": "C199", "title": "Coupled solve", "statement": "The coupled solve starts from the current solutions of the disciplines and, when it returns, every discipline's solution (global and local copy) solves the coupled equations; it refuses to start when a discipline is missing.", "quantifier": "all solvers, disciplines and initial solutions", "why_tests_cant": "all runs of the nonlinear solver", "anchors": ["src/solver/multiphysics_nonlinear_solver.cpp: solve, set_system_assembly, get_system_assembly"]}
{"id": "C200", "title": "Residual and Jacobian of a time step", "statement": "The assembled residual of a time step is the sum of the element equations at the state the time scheme gives for the new unknowns, zero on constrained unknowns, and the assembled Jacobian is its derivative; both do not depend on the distribution of the elements.", "quantifier": "all meshes, distributions, constraints, time schemes and states", "why_tests_cant": "all meshes and states", "anchors": ["src/base/transient_assembly.cpp: residual_and_jacobian"]}
{"id": "C201", "title": "Matrix-free product of a time step", "statement": "The matrix-free product equals the assembled Jacobian times the direction.", "quantifier": "all meshes, constraints, time schemes, states and directions", "why_tests_cant": "all directions", "anchors": ["src/base/transient_assembly.cpp: linearized_jacobian_solution_product"]}
{"id": "C202", "title": "Sensitivity of a time step", "statement": "The assembled right hand side of the sensitivity problem of a time step is the derivative of the step's equations with respect to the parameter, the earlier steps following the parameter and the new unknowns held fixed.", "quantifier": "all meshes, parameters, time schemes, states and sensitivities of the earlier steps", "why_tests_cant": "all histories of steps", "anchors": ["src/base/transient_assembly.cpp: sensitivity_assemble"]}
{"id": "C203", "title": "Reduced matrices of a structure", "statement": "The reduced mass, damping and stiffness matrices asked for are the quadratic forms of the structure's mass, damping and tangent stiffness (with the loads' parts) at the base solution on the modes given, whatever the constraints and the distribution of the elements.", "quantifier": "all meshes, modes, base solutions, constraints, sets of quantities and distributions", "why_tests_cant": "all meshes and modes", "anchors": ["src/elasticity/structural_fluid_interaction_assembly.cpp: assemble_reduced_order_quantity", "src/elasticity/fluid_structure_assembly_elem_operations.cpp: elem_calculations"]}
{"id": "C204", "title": "Sensitivity of reduced matrices", "statement": "The sensitivities of the reduced matrices are their derivatives with respect to the parameter, the base solution following it and the modes held fixed, whatever was computed before with the same element operations.", "quantifier": "all meshes, modes, parameters, base solutions and histories of calls", "why_tests_cant": "all paths of the base solution", "anchors": ["src/elasticity/structural_fluid_interaction_assembly.cpp: assemble_reduced_order_quantity_sensitivity", "src/elasticity/fluid_structure_assembly_elem_operations.cpp: elem_sensitivity_calculations"]}
{"id": "C205", "title": "Generalised aerodynamic forces", "statement": "Entry (a,b) of the generalised force matrix is the work along mode a of the complex aerodynamic force caused by mode b, so that its product with generalised coordinates is the generalised force of the displacement they describe; with a parameter it is the derivative.", "quantifier": "all numbers of modes, meshes, flows and distributions", "why_tests_cant": "all modes and flows", "anchors": ["src/elasticity/fsi_generalized_aero_force_assembly.cpp: assemble_generalized_aerodynamic_force_matrix"]}
{"id": "C206", "title": "Attaching the generalised force assembly", "statement": "Attaching flow solver, flow assembly and element operations to the generalised force assembly and detaching them leaves every object free for further use.", "quantifier": "all objects and sequences of attaching and detaching", "why_tests_cant": "all sequences of calls", "anchors": ["src/elasticity/fsi_generalized_aero_force_assembly.cpp: init, clear_discipline_and_system"]}
{"id": "C207", "title": "Participation in an output", "statement": "An element takes part in an output exactly if all do, its subdomain was chosen, or it or an element it was refined from was chosen; a side takes part exactly if one of its boundary ids was chosen; a second choice is refused.", "quantifier": "all meshes, refinements and choices", "why_tests_cant": "all refinement histories", "anchors": ["src/base/output_assembly_elem_operations.cpp: set_participating_subdomains, set_participating_elements, set_participating_elements_to_all, set_participating_boundaries, if_evaluate_for_element, if_evaluate_for_boundary"]}
{"id": "C208", "title": "Temperature adjoint of a stress output", "statement": "The vector assembled for the thermal adjoint problem is the derivative of the stress output with respect to the temperatures, directly and through the displacements of the structure in equilibrium.", "quantifier": "all meshes, temperatures, thermal loads and choices of elements", "why_tests_cant": "all directions of temperature", "anchors": ["src/elasticity/stress_temperature_adjoint.cpp: output_derivative_for_elem, set_structural_solutions, set_elem_solution"]}
{"id": "C209", "title": "Dense eigensolvers return eigenpairs", "statement": "After compute, every eigenvalue and eigenvector handed out by the interfaces to LAPACK is an eigenpair of the matrices passed last, complex conjugate pairs of real problems being put together from LAPACK's packed columns; if LAPACK reports failure nothing is handed out as if it had converged.", "quantifier": "all matrices, sizes, packed outputs of LAPACK and sequences of calls", "why_tests_cant": "all packings of conjugate pairs and all histories", "anchors": ["src/numerics/lapack_dggev_interface.cpp: compute", "src/numerics/lapack_dgeev_interface.cpp: compute", "src/numerics/lapack_zggev_interface.cpp: compute", "src/numerics/lapack_dggev_interface.h: eigenvectors, alpha, beta"]}
{"id": "C210", "title": "Scaling of eigenvectors", "statement": "Scaling the eigenvectors to the identity innerproduct keeps them eigenvectors and gives left and right vectors a product of one with the second matrix.", "quantifier": "all problems with eigenvectors of nonzero product", "why_tests_cant": "all eigenvectors", "anchors": ["src/numerics/lapack_dggev_interface.h: scale_eigenvectors_to_identity_innerproduct", "src/numerics/lapack_zggev_base.h: scale_eigenvectors_to_identity_innerproduct"]}
{"id": "C211", "title": "Work space of the dense eigensolvers", "statement": "The arrays passed to LAPACK are at least as large as its documentation requires, for every size of the problem.", "quantifier": "all sizes of the problem", "why_tests_cant": "all sizes, including zero", "anchors": ["src/numerics/lapack_dggev_interface.cpp: compute", "src/numerics/lapack_dgeev_interface.cpp: compute", "src/numerics/lapack_zggev_interface.cpp: compute", "src/numerics/lapack_zggevx_interface.cpp: compute"]}
{"id": "C212", "title": "Eigenpairs of the sparse solver", "statement": "An eigenpair asked from the sparse solver is the one SLEPc computed, real and imaginary part of value and vector, and of a Hermitian problem it is real.", "quantifier": "all converged problems and indices", "why_tests_cant": "all problems, Hermitian or not", "anchors": ["src/solver/slepc_eigen_solver.cpp: get_eigenvalue, get_eigenpair"]}
{"id": "C213", "title": "Residual and Jacobian of a cut structure", "statement": "The residual of a structure cut by a level set is the sum over the material parts of the elements, with a small stiffness in the void and homogenised or statically condensed forces where an element is cut, and the Jacobian is its derivative, whatever the distribution of the elements.", "quantifier": "all meshes, cuts, solutions, indicators and distributions", "why_tests_cant": "all cuts of all elements", "anchors": ["src/level_set/level_set_nonlinear_implicit_assembly.cpp: residual_and_jacobian"]}
{"id": "C214", "title": "Sensitivity of the residual of a cut structure", "statement": "The sensitivity of the residual for a parameter of the level set or of the structure is its derivative with the solution held: the sensitivity of the material parts plus the boundary term of every piece of the interface exactly once.", "quantifier": "all meshes, cuts, parameters and solutions", "why_tests_cant": "all cuts and all orders of sub-elements", "anchors": ["src/level_set/level_set_nonlinear_implicit_assembly.cpp: sensitivity_assemble"]}
{"id": "C215", "title": "Output of a cut structure and its gradient", "statement": "An output of a cut structure is the sum over the parts of the elements it is asked for, and the vector returned by calculate_output_derivative is its derivative with respect to the solution.", "quantifier": "all meshes, cuts, outputs, participations and solutions", "why_tests_cant": "all cuts and outputs", "anchors": ["src/level_set/level_set_nonlinear_implicit_assembly.cpp: calculate_output, calculate_output_derivative"]}
{"id": "C216", "title": "Direct sensitivity of an output of a cut structure", "statement": "The direct sensitivity of an output is its derivative for the parameter and the given sensitivity of the solution, including the motion of the interface.", "quantifier": "all meshes, cuts, parameters, outputs and sensitivities of the solution", "why_tests_cant": "all cuts and parameters", "anchors": ["src/level_set/level_set_nonlinear_implicit_assembly.cpp: calculate_output_direct_sensitivity"]}
{"id": "C217", "title": "Attaching level sets to an assembly", "statement": "Attaching and clearing level set, velocity, indicator and solution handlers frees what the assembly made exactly once, in every order, and a later assembly uses what was attached last.", "quantifier": "all sequences of attaching, clearing, reinitialising and destroying", "why_tests_cant": "all sequences of calls", "anchors": ["src/level_set/level_set_nonlinear_implicit_assembly.cpp: set_level_set_function, clear_level_set_function, set_level_set_velocity_function, clear_level_set_velocity_function, set_indicator_function, clear"]}
{"id": "C218", "title": "Eigenproblem of a cut structure", "statement": "Stiffness and mass matrix of the eigenproblem of a structure cut by a level set are those of its material part: their forms are the sums of the forms of the material in every element, whatever the distribution of the elements, and the eigenproblem of what is left of the structure is well posed.", "quantifier": "all meshes, cuts, constraints, base solutions and distributions", "why_tests_cant": "all cuts of all elements and all constraints", "anchors": ["src/level_set/level_set_eigenproblem_assembly.cpp: eigenproblem_assemble", "src/elasticity/structural_modal_eigenproblem_assembly.cpp: elem_calculations"]}
{"id": "C219", "title": "Sensitivity of the eigenproblem of a cut structure", "statement": "The sensitivity matrices are the derivatives of the stiffness and mass matrix for the parameter, including motion of the interface and of the base solution, and the eigenvalue sensitivity computed from them is the derivative of the eigenvalue.", "quantifier": "all meshes, cuts, parameters, base solutions, eigenvectors and contents of the matrices before the call", "why_tests_cant": "all parameters and states", "anchors": ["src/level_set/level_set_eigenproblem_assembly.cpp: eigenproblem_sensitivity_assemble", "src/elasticity/structural_modal_eigenproblem_assembly.cpp: elem_sensitivity_calculations, elem_topology_sensitivity_calculations", "src/base/nonlinear_system.cpp: eigenproblem_sensitivity_solve"]}
{"id": "C220", "title": "Stress field for plots", "statement": "After update_stress_strain_data every participating element holds, for each strain and stress component, the value of largest modulus over its evaluation points with its sign, and the largest von Mises stress; all other elements hold zero, whatever the distribution. The output given is used only to evaluate: what it held for the structure stays available.", "quantifier": "all meshes, solutions, numbers of points per element, subsets and distributions", "why_tests_cant": "all numbers of points and all distributions", "anchors": ["src/elasticity/stress_assembly.cpp: get_max_stress_strain_values, update_stress_strain_data", "src/elasticity/stress_output_base.cpp: clear"]}
{"id": "C221", "title": "Sensitivity of the stress field", "statement": "The field computed by update_stress_strain_sensitivity_data is the derivative of the stress field for the parameter and the sensitivity of the solution.", "quantifier": "all meshes, parameters, solutions and numbers of points per element", "why_tests_cant": "all parameters and numbers of points", "anchors": ["src/elasticity/stress_assembly.cpp: get_max_stress_strain_values, update_stress_strain_sensitivity_data"]}
{"id": "C222", "title": "Stress field of a cut structure", "statement": "For a structure cut by a level set the stress field holds for every element with material the extreme values over the material parts of it, evaluated with the condensed solution where the element is factored, and zero in the void; outputs restricted to a subset leave other elements zero; init and clear in any order lose no memory.", "quantifier": "all meshes, cuts, solutions, subsets and sequences of init and clear", "why_tests_cant": "all cuts and all sequences of calls", "anchors": ["src/elasticity/level_set_stress_assembly.cpp: init, clear, update_stress_strain_data, ~LevelSetStressAssembly"]}
{"id": "C223", "title": "Void unknowns during a nonlinear solve", "statement": "While a nonlinear solve runs, the unknowns in the void of homogenised elements follow every iterate of the system, so that the void equations of each such element are met (to first order, and exactly for linear elements) by the iterate and the stored void unknowns together; elements not homogenised and monitors of others are left alone.", "quantifier": "all meshes, element operators, starting points, numbers of iterations, steps and step lengths, and sequences of init and clear", "why_tests_cant": "all iteration histories", "anchors": ["src/level_set/level_set_void_solution.cpp: _snes_level_set_void_solution_assembly_monitor_function, init, clear, update_void_solution", "src/level_set/interface_dof_handler.cpp: solution_of_factored_element, update_factored_element_solution"]}
{"id": "C224", "title": "Pressure functions of the fluid", "statement": "The pressure function returns at every point the pressure of the conserved variables set last, relative to the reference set last or as a coefficient when asked; the perturbation is its derivative in the direction of the perturbed solution, also in its complex form; without a solution nothing is returned.", "quantifier": "all sequences of settings, solutions, perturbations, flight conditions and points", "why_tests_cant": "all states and all sequences of settings", "anchors": ["src/fluid/pressure_function.cpp: init, use_reference_pressure, operator(), perturbation", "src/fluid/frequency_domain_pressure_function.cpp: operator()", "src/fluid/pressure_function.h: set_calculate_cp"]}
{"id": "C225", "title": "Integrated pressure output", "statement": "The surface-integrated pressure is the norm of the load set last or its component along the direction chosen last; its sensitivities and derivatives are those of that value and belong to the load it was computed for.", "quantifier": "all modes, directions, loads, sensitivities and sequences of calls", "why_tests_cant": "all sequences of calls and all loads", "anchors": ["src/fluid/surface_integrated_pressure_output.cpp: set_output_mode, value, sensitivity, derivative, set_load", "src/fluid/surface_integrated_pressure_output.h"]}
{"id": "C226", "title": "Matrices of the buckling eigenproblem", "statement": "For the two states given last, the first matrix of the buckling eigenproblem is the tangent stiffness of the structure at the first state and the second one that of the first minus that of the second (or minus that of the second alone), whatever the distribution of the elements and in every analysis; the load parameter keeps its value.", "quantifier": "all meshes, constraints, states, loads, distributions and sequences of settings and analyses, with and without assertions", "why_tests_cant": "all meshes and distributions", "anchors": ["src/elasticity/structural_buckling_eigenproblem_assembly.cpp: set_buckling_data, clear_discipline_and_system, eigenproblem_assemble", "src/elasticity/structural_buckling_eigenproblem_elem_operations.cpp: set_elem_data, init, elem_calculations"]}
{"id": "C227", "title": "Critical load from an eigenvalue", "statement": "The critical load estimated from an eigenvalue is the load at which the stiffness interpolated between the two states is singular along the mode, hence the critical load itself if the stiffness is affine in the load; every such load is found.", "quantifier": "all meshes, states, eigenvalues, modes and both formulations", "why_tests_cant": "all structures and eigenvalues", "anchors": ["src/elasticity/structural_buckling_eigenproblem_assembly.cpp: critical_point_estimate_from_eigenproblem, eigenproblem_assemble"]}
{"id": "C228", "title": "Sensitivity of buckling eigenvalues", "statement": "The sensitivity computed for an eigenvalue of the buckling eigenproblem is its derivative for the parameter.", "quantifier": "all meshes, states, parameters and modes", "why_tests_cant": "all parameters and states", "anchors": ["src/base/eigenproblem_assembly.cpp: eigenproblem_sensitivity_assemble", "src/elasticity/structural_buckling_eigenproblem_elem_operations.cpp: elem_sensitivity_calculations", "src/base/nonlinear_system.cpp: eigenproblem_sensitivity_solve"]}
{"id": "C229", "title": "Matrix of a time step of a structural element", "statement": "In every time step of first or second order, and in the solves for the initial rate or acceleration, the matrix of a structural element is the derivative of its residual with respect to the unknown of the step, also when loads follow the velocity; each part of the matrix is the derivative of the part of the residual it is named after.", "quantifier": "all elements with exact terms, scheme parameters, step sizes and histories", "why_tests_cant": "all elements and histories", "anchors": ["src/elasticity/structural_transient_assembly.cpp: elem_calculations", "src/solver/second_order_newmark_transient_solver.cpp: elem_calculations", "src/solver/generalized_alpha_transient_solver.cpp: elem_calculations", "src/solver/first_order_newmark_transient_solver.cpp: elem_calculations"]}
{"id": "C230", "title": "Equations of motion and equilibrium of a structural element", "statement": "The residual of a structural element in time is the balance of inertia, damping, internal force, prestress and loads, whether or not matrices are asked for; a state at rest satisfies it just when it satisfies the equations of statics.", "quantifier": "all elements, states, rates and accelerations", "why_tests_cant": "all states", "anchors": ["src/elasticity/structural_transient_assembly.cpp: elem_calculations", "src/elasticity/structural_nonlinear_assembly.cpp: elem_calculations"]}
{"id": "C231", "title": "Sensitivity and matrix-free product of a structural element in time", "statement": "The sensitivity of the residual of a structural element in a time step is its derivative for the parameter, and the matrix-free product is the matrix times the perturbation, for solvers of both orders.", "quantifier": "all elements, states, parameters and perturbations", "why_tests_cant": "all parameters and perturbations", "anchors": ["src/elasticity/structural_transient_assembly.cpp: elem_sensitivity_calculations, linearized_jacobian_solution_product", "src/elasticity/structural_element_base.cpp: inertial_residual_sensitivity, linearized_inertial_residual", "src/solver/first_order_newmark_transient_solver.cpp: set_element_data, elem_sensitivity_calculations"]}
{"id": "C232", "title": "Harmonic small motions of a flow", "statement": "For a small harmonic motion of a flow at a given frequency, the residual stands at every time for the linearised equations of the moving state: scale of time times steady matrix times state plus storage matrix times rate; sides that do not move enter with their steady matrix; a reduced frequency gives the motion of the frequency it stands for.", "quantifier": "all amplitudes, frequencies, flows, meshes and times", "why_tests_cant": "all amplitudes, frequencies and times", "anchors": ["src/fluid/frequency_domain_linearized_conservative_fluid_elem.cpp: internal_residual, side_external_residual, symmetry_surface_residual, far_field_surface_residual", "src/aeroelasticity/frequency_function.cpp: operator(), nondimensionalizing_factor"]}
{"id": "C233", "title": "Flow along an oscillating wall", "statement": "The flux at an oscillating wall is, at every phase of the motion, the first-order change of the flux through the wall as displacement, normal and state move, and the matrix is what multiplies the state in it.", "quantifier": "all walls, displacements and rotations of the normal, amplitudes, frequencies and phases", "why_tests_cant": "all motions and phases", "anchors": ["src/fluid/frequency_domain_linearized_conservative_fluid_elem.cpp: slip_wall_surface_residual"]}
{"id": "C234", "title": "Sensitivity of harmonic small motions of a flow", "statement": "The sensitivity of the residual of a harmonic motion of a flow is its derivative for the parameter, in the interior, at sides that do not move and at oscillating walls.", "quantifier": "all parameters of frequency and amplitude, flows and walls", "why_tests_cant": "all parameters and walls", "anchors": ["src/fluid/frequency_domain_linearized_conservative_fluid_elem.cpp: internal_residual_sensitivity, side_external_residual_sensitivity, slip_wall_surface_residual_sensitivity", "src/aeroelasticity/frequency_function.cpp: derivative"]}
{"id": "C235", "title": "Comparison of matrices", "statement": "The comparison of two matrices of the same size names exactly the entries that differ by more than the tolerance, passes if there is none, and does not depend on the order of the two.", "quantifier": "all matrices, sizes and tolerances", "why_tests_cant": "all pairs of values", "anchors": ["src/base/nonlinear_implicit_assembly_elem_operations.cpp: compare, compare_matrix"]}
{"id": "C236", "title": "Check of element matrices by finite differences", "statement": "The check of an element compares its matrix with the quotients of differences of its residual, leaves the element with its solution, raises nothing for a right matrix, names every entry that is wrong, and tells its caller.", "quantifier": "all elements, solutions and sizes", "why_tests_cant": "all residuals and matrices", "anchors": ["src/base/nonlinear_implicit_assembly_elem_operations.cpp: check_element_numerical_jacobian"]}
{"id": "C237", "title": "Reinitialization of a level set", "statement": "The assembly for the reinitialization gives the residual of the equations with the level set given as reference, the derivative of these equations as matrix, the same whatever the distribution of the elements, and is refused without a reference; the operation set for after the assembly is carried out.", "quantifier": "all meshes, constraints, time schemes, reference level sets, histories of calls", "why_tests_cant": "all residuals and distributions", "anchors": ["src/level_set/level_set_reinitialization_transient_assembly.cpp: residual_and_jacobian, set_reference_solution", "src/level_set/level_set_elem_base.cpp: set_reference_solution_for_initialization"]}
{"id": "C238", "title": "Linearised sides of a flow", "statement": "The linearised residual of the sides of a flow element is the derivative of their residual when the flow, the velocity of the walls and the rotation of their normals change together; if no wall moves it is the matrix of the sides times the perturbation.", "quantifier": "all flows, perturbations, walls, motions, meshes in one to three dimensions", "why_tests_cant": "all families of flows and walls", "anchors": ["src/fluid/conservative_fluid_element_base.cpp: linearized_side_external_residual, linearized_slip_wall_surface_residual"]}
{"id": "C239", "title": "Time step of a flow", "statement": "The residual of a time step conserves mass and energy and changes the momentum by the pressure on the walls; the product with a perturbation is the derivative of that residual and the matrices times the perturbation; the sensitivity is the derivative with respect to the parameter.", "quantifier": "all flows, rates, perturbations, meshes, parameters", "why_tests_cant": "all families of flows", "anchors": ["src/fluid/conservative_fluid_transient_assembly.cpp: elem_calculations, linearized_jacobian_solution_product, elem_sensitivity_calculations"]}
{"id": "C240", "title": "Element of the harmonic analysis of a flow", "statement": "The element gives the sum of what its interior and each of its sides give; the vector is affine in the amplitude with the matrix as slope, so one linear solve makes it vanish, and it is the matrix times the amplitude where no wall oscillates; it does not depend on whether the matrix is asked for; its sensitivity is its derivative; an element works with the frequency that was set when it was made.", "quantifier": "all flows, amplitudes, frequencies, sides, sequences of calls", "why_tests_cant": "all families of flows and all histories of calls", "anchors": ["src/fluid/frequency_domain_linearized_complex_assembly.cpp: elem_calculations, elem_sensitivity_calculations, set_frequency_function, clear_frequency_function, init"]}
{"id": "C241", "title": "Shock capturing of a flow", "statement": "At every point with positive density and temperature shock capturing gives a well defined coefficient, equal in all directions and not negative; it vanishes where and only where the flow satisfies the steady equations, is the published ratio of sizes measured with the entropy variables, is proportional to the scaling and to the inverse of the order of the elements, and what it adds to the residual only dissipates.", "quantifier": "all states, gradients, element geometries, dimensions, gases, orders and scalings", "why_tests_cant": "all points of a continuum of states", "anchors": ["src/fluid/fluid_elem_base.cpp: calculate_aliabadi_discontinuity_operator", "src/fluid/conservative_fluid_element_base.cpp: internal_residual"]}
