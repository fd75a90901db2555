{
 "claims": [
  {
   "property": "C01",
   "status": "proved",
   "theorems": [
    "C01_vector_mult",
    "C01_vector_mult_same_shape",
    "C01_short_shape_unchecked"
   ],
   "note": "shape vectors must hold n_dofs_per_var values: set_shape_function does not check it (finding)"
  },
  {
   "property": "C02",
   "status": "proved",
   "theorems": [
    "C02_adjoint",
    "C02_vector_mult_transpose"
   ],
   "note": ""
  },
  {
   "property": "C03",
   "status": "proved",
   "theorems": [
    "C03_matrix_products",
    "C03_operator_product",
    "C03_long_shape_spills"
   ],
   "note": "longer shape vectors spill into the next variable (finding)"
  },
  {
   "property": "C04",
   "status": "proved",
   "theorems": [
    "C04_block_product",
    "C04_assembly_accumulates",
    "C04_matrix_round_trip",
    "C04_vector_round_trip"
   ],
   "note": ""
  },
  {
   "property": "C05",
   "status": "proved",
   "theorems": [
    "C05_parallel_sum"
   ],
   "note": "comm.sum is modelled as the rank-wise sum; the communication layer is not modelled"
  },
  {
   "property": "C06",
   "status": "proved",
   "theorems": [
    "C06_depends_on_reachability",
    "C06_cycle_diverges"
   ],
   "note": "for acyclic function graphs; on a cyclic graph the recursion does not end (finding)"
  },
  {
   "property": "C07",
   "status": "proved",
   "theorems": [
    "C07_constant_field_derivative",
    "C07_constant_field_value"
   ],
   "note": ""
  },
  {
   "property": "C08",
   "status": "partial",
   "theorems": [
    "C08_card_depends_partial",
    "C08_own_field_function_refuted",
    "C08_multilayer_own_property_refuted",
    "C08_add_get"
   ],
   "note": "false for multilayer cards, whose depends_on ignores their own properties, and for a field function queried for itself"
  },
  {
   "property": "C09",
   "status": "proved",
   "theorems": [
    "C09_loads_refine",
    "C09_release_total",
    "C09_debug_misuse",
    "C09_remove_absent"
   ],
   "note": ""
  },
  {
   "property": "C10",
   "status": "partial",
   "theorems": [
    "C10_clear_loads_refuted",
    "C10_clear_loads_partial"
   ],
   "note": "false of the code: clear_loads keeps all point loads; proved for side and volume loads"
  },
  {
   "property": "C11",
   "status": "proved",
   "theorems": [
    "C11_property_card"
   ],
   "note": "release build: a missing card dereferences the end iterator"
  },
  {
   "property": "C12",
   "status": "partial",
   "theorems": [
    "C12_parameter_copy_refuted",
    "C12_parameter_copy_dangling_refuted",
    "C12_no_copy_safe_partial"
   ],
   "note": "false of the code: a copied Parameter shares its heap cell and frees it twice"
  },
  {
   "property": "C60",
   "status": "proved",
   "theorems": [
    "C60_dirichlet_dofs",
    "C60_dirichlet_dofs_total",
    "C60_mixed_order_out_of_bounds"
   ],
   "note": "the side dof numbers of variable 0's FE type are used for every variable (finding: out of bounds for mixed orders)"
  },
  {
   "property": "C13",
   "status": "proved",
   "theorems": [
    "C13_history",
    "C13_runs"
   ],
   "note": ""
  },
  {
   "property": "C14",
   "status": "proved",
   "theorems": [
    "C14_newmark_relations",
    "C14_newmark_unique",
    "C14_perturbation",
    "C14_sensitivity_relations",
    "C14_accepted_steps"
   ],
   "note": ""
  },
  {
   "property": "C15",
   "status": "proved",
   "theorems": [
    "C15_first_order_relation",
    "C15_sensitivity_relation",
    "C15_first_order_unique",
    "C15_previous_step_sensitivity",
    "C14_perturbation"
   ],
   "note": ""
  },
  {
   "property": "C16",
   "status": "proved",
   "theorems": [
    "C16_first_order",
    "C16_first_order_highest",
    "C16_second_order",
    "C16_second_order_highest",
    "C16_initial_acceleration"
   ],
   "note": "proved for all elements with exact partial Jacobians, linear ones included"
  },
  {
   "property": "C17",
   "status": "proved",
   "theorems": [
    "C17_generalized_alpha_coefficients"
   ],
   "note": ""
  },
  {
   "property": "C61",
   "status": "partial",
   "theorems": [
    "C61_alpha_jacobian_partial",
    "C61_alpha_highest_refuted",
    "C61_alpha_initial_acceleration_refuted"
   ],
   "note": "false of the code in the highest-derivative solve (factor 1-alpha_m missing, previous slot blended in); proved for the time-step solve"
  },
  {
   "property": "C62",
   "status": "partial",
   "theorems": [
    "C62_newmark_product_partial",
    "C62_alpha_product_refuted"
   ],
   "note": "false of the generalised-alpha solver, whose perturbed data are not blended; proved for the Newmark solver"
  },
  {
   "property": "C63",
   "status": "partial",
   "theorems": [
    "C63_restart_state_partial",
    "C63_restart_sensitivity_refuted"
   ],
   "note": "false of the code: _first_sensitivity_step is never set again"
  },
  {
   "property": "C18",
   "status": "partial",
   "theorems": [
    "C18_step_limits_partial",
    "C18_run_limits_partial",
    "C18_below_min_step_refuted",
    "C18_desired_count_shrinks_refuted"
   ],
   "note": "false of the code when the arc length starts below min_step (as initialize() leaves it with the default limits) and when exactly the desired number of iterations was used; proved otherwise"
  },
  {
   "property": "C19",
   "status": "partial",
   "theorems": [
    "C19_restarts_partial",
    "C19_final_failure_refuted",
    "C19_converged_at_limit_repeated",
    "C19_zero_min_step_diverges"
   ],
   "note": "restarts restore the state and the solve terminates; the last failed trial is not undone"
  },
  {
   "property": "C20",
   "status": "partial",
   "theorems": [
    "C20_schur",
    "C20_bordered",
    "C20_pseudo_iterate",
    "C20_arclength_partial",
    "C20_arclength_stale_matrix_refuted"
   ],
   "note": "proved for the factorisation itself and the pseudo-arclength solver; the arclength solver passes a dXdp computed with an older matrix, then the constraint equation is not satisfied"
  },
  {
   "property": "C21",
   "status": "proved",
   "theorems": [
    "C21_arclength_unit",
    "C21_arclength_gradient",
    "C21_pseudo_direction",
    "C21_pseudo_gradient",
    "C21_pseudo_constraint",
    "C21_arclength_constraint",
    "C21_pseudo_initial_unit"
   ],
   "note": ""
  },
  {
   "property": "C22",
   "status": "proved",
   "theorems": [
    "C22_averages",
    "C22_terminates",
    "C22_first_acceptable_trial"
   ],
   "note": ""
  },
  {
   "property": "C23",
   "status": "partial",
   "theorems": [
    "C23_previous_is_last_accepted_partial",
    "C23_rejected_solution_is_zero_refuted"
   ],
   "note": "false of the code: after a rejection solution_sensitivity() is zero; solution_sensitivity(1) is the last accepted one after any history"
  },
  {
   "property": "C64",
   "status": "partial",
   "theorems": [
    "C64_steady_state_partial",
    "C64_steady_state_refuted"
   ],
   "note": "true for beta = 1, false otherwise: the right-hand side lacks -(1-beta) times the integrated Jacobian"
  },
  {
   "property": "C65",
   "status": "partial",
   "theorems": [
    "C65_interval_integral_partial",
    "C65_interval_integral_refuted"
   ],
   "note": "false of the code: every sub-step reads the last solution, both sensitivities coincide after an accepted call, and the clock is moved back"
  },
  {
   "property": "C24",
   "status": "partial",
   "theorems": [
    "C24_block_solve_partial",
    "C24_equivalent_system",
    "C24_constrained_dof_refuted"
   ],
   "note": "proved without constrained dofs; with libMesh's constrained rows the block system is singular because the unit diagonal is also written into the imaginary blocks"
  },
  {
   "property": "C25",
   "status": "proved",
   "theorems": [
    "C25_sweep",
    "C25_sweep_total",
    "C25_crossovers",
    "C25_exactly_once",
    "C25_total"
   ],
   "note": "pairs whose two velocities are both at most 1e-5 in magnitude are skipped by the code and not counted; a mode unstable at the lowest velocity gets one extra entry"
  },
  {
   "property": "C26",
   "status": "proved",
   "theorems": [
    "C26_bracket_kept",
    "C26_search",
    "C26_search_total"
   ],
   "note": ""
  },
  {
   "property": "C27",
   "status": "partial",
   "theorems": [
    "C27_converged_partial",
    "C27_converged_refuted",
    "C27_zero_iterations_refuted"
   ],
   "note": "false of the code: the success flag of the search is ignored; proved that the stored root is the tracked mode of the last trial and converged exactly when the search reported success"
  },
  {
   "property": "C28",
   "status": "partial",
   "theorems": [
    "C28_critical_lowest_partial",
    "C28_terminates",
    "C28_unstable_start_refuted"
   ],
   "note": "proved for sweeps starting from a velocity where all retained modes are stable; otherwise the search divides 0 by 0"
  },
  {
   "property": "C29",
   "status": "proved",
   "theorems": [
    "C29_sort_permutes",
    "C29_sort_total",
    "C29_best_match"
   ],
   "note": ""
  },
  {
   "property": "C30",
   "status": "proved",
   "theorems": [
    "C30_time_domain",
    "C30_time_domain_unique",
    "C30_ug_damping",
    "C30_ug_velocity"
   ],
   "note": ""
  },
  {
   "property": "C31",
   "status": "proved",
   "theorems": [
    "C31_identity_blocks",
    "C31_true_derivative",
    "C31_eigenvalue_derivative"
   ],
   "note": ""
  },
  {
   "property": "C66",
   "status": "partial",
   "theorems": [
    "C66_null_arguments_partial",
    "C66_null_arguments_refuted"
   ],
   "note": "false of the code: dX/dp without dX/dV dereferences a null pointer"
  },
  {
   "property": "C67",
   "status": "partial",
   "theorems": [
    "C67_no_tracking_sound",
    "C67_march_terminates",
    "C67_trial_inside_partial",
    "C67_velocities_in_range_partial",
    "C67_trial_outside_refuted"
   ],
   "note": "success and termination proved; the trial velocity leaves the bracket once the upper damping is below 1e-4"
  },
  {
   "property": "C68",
   "status": "proved",
   "theorems": [
    "C68_critical_root",
    "C68_count"
   ],
   "note": ""
  },
  {
   "property": "C32",
   "status": "partial",
   "theorems": [
    "C32_history_round_trip_partial",
    "C32_history_exact_partial",
    "C32_precision_refuted",
    "C32_skipped_write_refuted",
    "C32_reopened_file_refuted"
   ],
   "note": "Round trip proved for every history in which all calls write, up to the printed precision; refuted in general: default precision loses digits, a call without writing or a file attached later makes recorded iterations unreadable."
  },
  {
   "property": "C33",
   "status": "partial",
   "theorems": [
    "C33_nlopt_gradient",
    "C33_nlopt_objective_gradient",
    "C33_dot_gradient",
    "C33_nlopt_values_refuted",
    "C33_nlopt_tolerance_refuted"
   ],
   "note": "Gradient copies proved for NLopt and DOT for all sizes and active sets (GCMMA receives the user's array itself); the no-out-of-bounds part fails for the NLopt tolerance argument with two or more constraints, and NLopt never receives the constraint values."
  },
  {
   "property": "C34",
   "status": "partial",
   "theorems": [
    "C34_evaluations_in_bounds_partial",
    "C34_evaluations_in_bounds_refuted",
    "C34_no_constraints_refuted"
   ],
   "note": "Proved when the origin is within the bounds or the first iteration does not backtrack; refuted otherwise."
  },
  {
   "property": "C35",
   "status": "partial",
   "theorems": [
    "C35_relative_change_partial",
    "C35_early_stop_refuted",
    "C35_iteration_limit_partial",
    "C35_backtracking_endless_refuted"
   ],
   "note": "Proved once enough objectives are recorded and when backtracking ends; refuted before that (buffer of zeros) and when the backtracking loop never ends."
  },
  {
   "property": "C36",
   "status": "partial",
   "theorems": [
    "C36_exit_category_refuted",
    "C36_success_refuted"
   ],
   "note": "False of the code: the printed category is right exactly for INFORM 11 and 44."
  },
  {
   "property": "C37",
   "status": "partial",
   "theorems": [
    "C37_bounds_partial",
    "C37_equality_bounds_refuted"
   ],
   "note": "Variables and inequality constraints proved; refuted for every equality constraint."
  },
  {
   "property": "C38",
   "status": "proved",
   "theorems": [
    "C38_verify_gradients",
    "C38_central_exact_for_quadratics",
    "C38_quadratic_problems"
   ],
   "note": "In exact arithmetic; the callback is assumed to leave gradient buffers alone unless gradients are requested."
  },
  {
   "property": "C39",
   "status": "partial",
   "theorems": [
    "C39_line_study_samples",
    "C39_line_study_objective_refuted"
   ],
   "note": "Samples proved; the reported objective is always zero."
  },
  {
   "property": "C40",
   "status": "proved",
   "theorems": [
    "C40_filter_is_cone_average",
    "C40_filter_constants_linear_bounds"
   ],
   "note": "Both neighbour searches; KD-tree query taken from its contract."
  },
  {
   "property": "C41",
   "status": "partial",
   "theorems": [
    "C41_overloads_agree_partial",
    "C41_ranks_agree_partial",
    "C41_vector_overload_refuted",
    "C41_map_grows_refuted"
   ],
   "note": "Agree at design-variable dofs, and NumericVector/map everywhere; the std::vector overload multiplies other dofs by their number of neighbours."
  },
  {
   "property": "C42",
   "status": "proved",
   "theorems": [
    "C42_influence_nodes",
    "C42_influence_interpolated",
    "C42_large_element_refuted"
   ],
   "note": "Nodes proved, and the level set interpolated at them; a counterexample shows interior points of large elements are not covered by the test (not part of the statement)."
  },
  {
   "property": "C43",
   "status": "proved",
   "theorems": [
    "C43_partition_exact",
    "C43_global_partition",
    "C43_reused_lists_refuted"
   ],
   "note": "For empty lists, as every caller in the library passes; lists that already hold dofs are appended to (shown separately)."
  },
  {
   "property": "C44",
   "status": "proved",
   "theorems": [
    "C44_condensation",
    "C44_embedded_system",
    "C44_store_round_trip"
   ],
   "note": "For every invertible void block; FullPivLU::solve taken from its contract, exact arithmetic."
  },
  {
   "property": "C45",
   "status": "partial",
   "theorems": [
    "C45_sign_changes",
    "C45_material_levels_partial",
    "C45_patch_partial",
    "C45_boundary_node",
    "C45_five_neighbours_refuted",
    "C45_equal_angles_refuted"
   ],
   "note": "Counting proved for every closed sequence; patches with more than four neighbours write out of bounds, coinciding directions dereference null."
  },
  {
   "property": "C69",
   "status": "proved",
   "theorems": [
    "C69_marked_elements_are_cut",
    "C69_recovery_assertions_hold"
   ],
   "note": ""
  },
  {
   "property": "C46",
   "status": "partial",
   "theorems": [
    "C46_whole_element",
    "C46_pieces_partial",
    "C46_touched_node",
    "C46_touched_side",
    "C46_centroid",
    "C46_colinear_refuted",
    "C46_opposite_nodes_refuted"
   ],
   "note": "Whole-element report proved as an equivalence. Pieces proved except in two situations where it is false: a side on the level set with corners of both signs, and two opposite corners on the level set with the other two of the same sign."
  },
  {
   "property": "C47",
   "status": "partial",
   "theorems": [
    "C47_areas_add_up_partial",
    "C47_pieces_nonnegative",
    "C47_fraction_partial",
    "C47_all_tied_refuted"
   ],
   "note": "Areas proved for every mode and geometry, unless every nodal value equals the tolerance exactly: then the element is in neither list. Volumes of QUAD9 parents are taken as those of the straight-sided quadrilateral."
  },
  {
   "property": "C48",
   "status": "proved",
   "theorems": [
    "C48_strictly_inside",
    "C48_exact_if_affine",
    "C48_nodes_made"
   ],
   "note": ""
  },
  {
   "property": "C49",
   "status": "partial",
   "theorems": [
    "C49_ids_unique_partial",
    "C49_wraps_refuted",
    "C49_node_ids",
    "C49_node_ids_refuted"
   ],
   "note": "New node ids of one element are distinct and above the mesh ids, but start at the same number for every element. Element ids need five times the largest element id to fit into 32 bits; the id wraps into the mesh ids otherwise."
  },
  {
   "property": "C70",
   "status": "partial",
   "theorems": [
    "C70_mode_found_partial",
    "C70_tie_refuted"
   ],
   "note": "False when a nodal value has exactly the magnitude of the tolerance; proved for all other values."
  },
  {
   "property": "C71",
   "status": "proved",
   "theorems": [
    "C71_reference_coordinates"
   ],
   "note": ""
  },
  {
   "property": "C72",
   "status": "partial",
   "theorems": [
    "C72_subdomain_partial",
    "C72_quad9_refuted"
   ],
   "note": "True for QUAD4; for QUAD9 the intermediate element is built without subdomain id."
  },
  {
   "property": "C50",
   "status": "proved",
   "theorems": [
    "C50_restored",
    "C50_process_total",
    "C50_round_trip_quad4"
   ],
   "note": "prepare_for_use of libMesh is an oracle that changes ids only; ids are restored when it numbers by the mesh alone."
  },
  {
   "property": "C51",
   "status": "partial",
   "theorems": [
    "C51_requests_partial",
    "C51_requests_total",
    "C51_children",
    "C51_location_refuted"
   ],
   "note": "Sharing proved as an equivalence; the location only when all requests for the edge agree: a second request for another point of the same edge gets the node of the first."
  },
  {
   "property": "C52",
   "status": "partial",
   "theorems": [
    "C52_rows",
    "C52_affine_fields",
    "C52_one_rank_partial",
    "C52_not_owned_refuted"
   ],
   "note": "Rows proved right; the ownership test is a disjunction that always holds, so dofs of other ranks are constrained. Completeness proved for one rank."
  },
  {
   "property": "C73",
   "status": "partial",
   "theorems": [
    "C73_return_value_partial",
    "C73_copy_refuted"
   ],
   "note": "False with a strong discontinuity: the copy of an element that touches the level set is not reported."
  },
  {
   "property": "C74",
   "status": "partial",
   "theorems": [
    "C74_separated_partial",
    "C74_corner_refuted"
   ],
   "note": "Proved when no node lies on the level set (within the tolerance); corners on the level set stay shared otherwise."
  },
  {
   "property": "C75",
   "status": "proved",
   "theorems": [
    "C75_subdomain_ids"
   ],
   "note": ""
  },
  {
   "property": "C53",
   "status": "proved",
   "theorems": [
    "C53_von_mises",
    "C53_hydrostatic",
    "C53_homogeneous",
    "C53_zero",
    "C53_sensitivity",
    "C53_sensitivity_zero"
   ],
   "note": "Parameter and state sensitivities; exact reals."
  },
  {
   "property": "C54",
   "status": "partial",
   "theorems": [
    "C54_between_partial",
    "C54_total_partial",
    "C54_nan_refuted"
   ],
   "note": "Every returned value lies between the extremes; a value is returned when the weight exponent is a natural number and p>0. Refuted otherwise: a fractional weight exponent and a stress below the reference give NaN."
  },
  {
   "property": "C55",
   "status": "partial",
   "theorems": [
    "C55_parameter_sensitivity_partial",
    "C55_state_sensitivity_partial",
    "C55_zero_stress_refuted"
   ],
   "note": "All three kinds, parameter and state sensitivities, away from the non-differentiable points (limit of the exp argument, vanishing stress with exponent below one). Refuted at the all-zero stress state: NaN although the output is constant."
  },
  {
   "property": "C56",
   "status": "proved",
   "theorems": [
    "C56_ks",
    "C56_converges"
   ],
   "note": "Upper bound, lower bound with the weight of the critical point, and convergence as p grows."
  },
  {
   "property": "C76",
   "status": "proved",
   "theorems": [
    "C76_ramp"
   ],
   "note": "Both bounds, any data set, p>0."
  },
  {
   "property": "C77",
   "status": "proved",
   "theorems": [
    "C77_topology_sensitivity"
   ],
   "note": "All three kinds; exact derivative at layer thickness zero."
  },
  {
   "property": "C78",
   "status": "proved",
   "theorems": [
    "C78_output_distribution",
    "C78_sensitivity_distribution",
    "C78_maximum"
   ],
   "note": "Any permutation of the points over any ranks and elements."
  },
  {
   "property": "C79",
   "status": "partial",
   "theorems": [
    "C79_current_partial",
    "C79_points_once",
    "C79_stale_refuted",
    "C79_zeroed_refuted"
   ],
   "note": "Holds for histories without set_aggregation_coefficients or zero_for_analysis between a total and the next clear; refuted for both."
  },
  {
   "property": "C57",
   "status": "partial",
   "theorems": [
    "C57_subdomains_partial",
    "C57_same_subdomain",
    "C57_node_maps_partial",
    "C57_node_round_trip",
    "C57_element_maps_partial",
    "C57_element_types",
    "C57_second_read_refuted",
    "C57_wide_pid_refuted",
    "C57_stale_nodes_refuted",
    "C57_old_node_faults"
   ],
   "note": "Full equivalence and inverse maps for the first read with 16-bit property ids; 'same pair, same subdomain' for any history. Refuted: second read restarts the numbering, property ids are narrowed to 16 bits, maps keep deleted nodes."
  },
  {
   "property": "C80",
   "status": "partial",
   "theorems": [
    "C80_property_map",
    "C80_first_row_partial",
    "C80_later_rows_refuted",
    "C80_rows_accumulate"
   ],
   "note": "The map is right for every history; the printed table only in its first row."
  },
  {
   "property": "C81",
   "status": "partial",
   "theorems": [
    "C81_boundaries_partial",
    "C81_one_per_id_refuted",
    "C81_model_object_refuted"
   ],
   "note": "One boundary per SPC card (not per id), exactly its nodes, for read(filename); read(BDFModel*) adds none."
  },
  {
   "property": "C82",
   "status": "partial",
   "theorems": [
    "C82_shift_partial",
    "C82_axis_refuted"
   ],
   "note": "Holds when no component of the axis is zero; otherwise a division by zero."
  },
  {
   "property": "C58",
   "status": "partial",
   "theorems": [
    "C58_value",
    "C58_between",
    "C58_derivative_partial",
    "C58_ends_refuted",
    "C58_offset"
   ],
   "note": "Values: all of it. derivative(): between the first and the last station; at and beyond them it returns the value (refuted)."
  },
  {
   "property": "C59",
   "status": "partial",
   "theorems": [
    "state_round_trip",
    "state_round_trip'",
    "free_stream_state_partial",
    "free_stream_state_refuted",
    "free_stream_sens_rho",
    "free_stream_sens_mach_partial",
    "free_stream_sens_mach_refuted"
   ],
   "note": "Round trip: all of it. Free stream: when the flow vector has no component outside the dimension of the analysis (otherwise its energy is counted but not its momentum, refuted); Mach sensitivities only for a non-zero Mach number (0/0 otherwise)."
  },
  {
   "property": "C83",
   "status": "partial",
   "theorems": [
    "perturbation_is_derivative_partial",
    "perturbation_is_derivative_refuted"
   ],
   "note": "All parts; the Mach number only for moving fluid (NaN at rest, refuted)."
  },
  {
   "property": "C84",
   "status": "proved",
   "theorems": [
    "variable_jacobians_inverse",
    "variable_jacobians_derivative",
    "variable_jacobians_derivative'",
    "pressure_coefficient"
   ],
   "note": ""
  },
  {
   "property": "C85",
   "status": "proved",
   "theorems": [
    "flux_jacobian_is_derivative",
    "flux_is_euler",
    "flux_jacobian_direction_refused",
    "flux_jacobian_third_direction_in_plane"
   ],
   "note": "All of it for the directions of the analysis. Besides: a direction the analysis does not have is refused, except the third one in two dimensions."
  },
  {
   "property": "C86",
   "status": "proved",
   "theorems": [
    "jacobian_sensitivity_primitive",
    "jacobian_sensitivity_conservative"
   ],
   "note": ""
  },
  {
   "property": "C87",
   "status": "proved",
   "theorems": [
    "eigenvectors"
   ],
   "note": ""
  },
  {
   "property": "C88",
   "status": "proved",
   "theorems": [
    "entropy_jacobians",
    "entropy_jacobian_is_derivative"
   ],
   "note": ""
  },
  {
   "property": "C89",
   "status": "partial",
   "theorems": [
    "diffusion_jacobian_chain",
    "diffusion_flux",
    "diffusion_jacobian_no_heat",
    "diffusion_tensor_sensitivity_partial",
    "diffusion_tensor_sensitivity_refuted"
   ],
   "note": "Flux and matrices: all of it. The sensitivity of the tensors omits the change of the variable Jacobian, so it is right only where the base state has no gradients (refuted otherwise)."
  },
  {
   "property": "C90",
   "status": "proved",
   "theorems": [
    "pressure_derivative",
    "moving_wall_jacobian"
   ],
   "note": ""
  },
  {
   "property": "C91",
   "status": "proved",
   "theorems": [
    "C91_interface_sides"
   ],
   "note": ""
  },
  {
   "property": "C92",
   "status": "partial",
   "theorems": [
    "C92_isotropic_stiffness",
    "C92_orthotropic_stiffness_partial",
    "C92_orthotropic_shear_refuted",
    "C92_mass_and_heat"
   ],
   "note": "Isotropic: all of it. Orthotropic: all kinds but the transverse shear, which uses the 1-2 modulus for the 1-3 and 2-3 planes (refuted when they differ)."
  },
  {
   "property": "C93",
   "status": "partial",
   "theorems": [
    "C93_isotropic_derivative_partial",
    "C93_orthotropic_derivative_partial",
    "C93_isotropic_shear_refuted",
    "C93_orthotropic_plane_refuted"
   ],
   "note": "Every quantity of both cards but two: the derivative of the isotropic transverse shear matrix is always zero, and that of the orthotropic two dimensional stiffness never returns (size assertion in plane stress, uninitialised variables in plane strain)."
  },
  {
   "property": "C94",
   "status": "partial",
   "theorems": [
    "C94_kind_partial",
    "C94_kind_refuted",
    "C94_identity",
    "C94_refusal",
    "C94_answered",
    "C94_destroyed_once"
   ],
   "note": "Identity, refusals and destruction: all of it. The kind: when all requests for the two dimensional stiffness agree on plane stress or plane strain; otherwise the first one wins (refuted)."
  },
  {
   "property": "C95",
   "status": "partial",
   "theorems": [
    "C95_isotropic_dependence",
    "C95_orthotropic_dependence_partial",
    "C95_orthotropic_dependence_refuted"
   ],
   "note": "All but the orthotropic plane strain stiffness, which depends on E33, nu23 and nu31 without registering them (refuted)."
  },
  {
   "property": "C96",
   "status": "partial",
   "theorems": [
    "C96_heated_isotropic_partial",
    "C96_heated_orthotropic_partial",
    "C96_plane_strain_refuted"
   ],
   "note": "Bars, plane stress and solids: all of it. Plane strain: the expansion along the constrained direction is left out (refuted)."
  },
  {
   "property": "C97",
   "status": "proved",
   "theorems": [
    "C97_turned_matrix",
    "C97_turned_stiffness",
    "C97_turned_heated",
    "C97_derivative",
    "C97_polar",
    "C97_polar_derivative"
   ],
   "note": ""
  },
  {
   "property": "C98",
   "status": "partial",
   "theorems": [
    "C98_conductance_refuted",
    "C98_conductance_partial",
    "C98_conductance_derivative",
    "C98_isotropic_card",
    "C98_isotropic_thermal_derivative_refuted"
   ],
   "note": "The oriented conductance is turned by the transpose of the orientation (refuted; right when the conductances agree or the orientation matrix is symmetric). The isotropic solid section is right, but the derivative of its thermal matrix is an error for every parameter (refuted)."
  },
  {
   "property": "C99",
   "status": "proved",
   "theorems": [
    "C99_section_constants",
    "C99_torsional_constant"
   ],
   "note": ""
  },
  {
   "property": "C100",
   "status": "proved",
   "theorems": [
    "C100_bar_resultants",
    "C100_bar_work",
    "C100_bar_shear",
    "C100_bar_heated"
   ],
   "note": ""
  },
  {
   "property": "C101",
   "status": "partial",
   "theorems": [
    "C101_bar_kinetic_defect",
    "C101_bar_kinetic_partial",
    "C101_bar_inertia_positive",
    "C101_bar_kinetic_refuted"
   ],
   "note": "With an offset the coupling of twist and deflection is missing and the coupling of the rotation about z has the wrong sign; the defect is given exactly. Symmetry and positivity hold always, the energy without offset."
  },
  {
   "property": "C102",
   "status": "partial",
   "theorems": [
    "C102_bar_constants",
    "C102_bar_torsion_partial",
    "C102_square_bar_refuted",
    "C102_bar_matrices",
    "C102_bar_heat",
    "C102_bar_shear_partial",
    "C102_bar_shear_refuted"
   ],
   "note": "All of it except the torsional constant at a square section, where it has no derivative, and the shear matrix when the caller's matrix is too small, where the code writes out of bounds."
  },
  {
   "property": "C103",
   "status": "proved",
   "theorems": [
    "C103_plate_resultants",
    "C103_plate_shear_and_heat",
    "C103_plate_heated",
    "C103_plate_kinetic"
   ],
   "note": ""
  },
  {
   "property": "C104",
   "status": "partial",
   "theorems": [
    "C104_plate_matrices",
    "C104_plate_inertia_partial",
    "C104_plate_inertia_refuted"
   ],
   "note": "All but the inertia matrix of an offset plate, whose derivative lacks the density and the offset's rotary inertia (refuted)."
  },
  {
   "property": "C105",
   "status": "proved",
   "theorems": [
    "C105_layers_stack",
    "C105_place_derivative",
    "C105_stack_resultants",
    "C105_stack_kinetic",
    "C105_bar_stack",
    "C105_no_layers"
   ],
   "note": "Without layers the matrix of the caller is returned unchanged."
  },
  {
   "property": "C106",
   "status": "partial",
   "theorems": [
    "C106_deleted_per_layer",
    "C106_destroyed_once_partial",
    "C106_destroyed_once_refuted"
   ],
   "note": "Refuted for two or more layers: every thickness function is deleted once per layer. With one layer it is deleted once, although the user owns it."
  },
  {
   "property": "C107",
   "status": "partial",
   "theorems": [
    "C107_bar_model_partial",
    "C107_bar_model_refuted",
    "C107_plate_model_partial",
    "C107_plate_model_refuted"
   ],
   "note": "Refuted for three-node triangles with a model set and for two-node bars of higher order with the default."
  },
  {
   "property": "C108",
   "status": "proved",
   "theorems": [
    "C108_residual",
    "C108_residual_sensitivity",
    "C108_output",
    "C108_output_derivative",
    "C108_local_solution",
    "C108_constrained_dof",
    "C108_redistributed",
    "C108_load_size"
   ],
   "note": ""
  },
  {
   "property": "C109",
   "status": "proved",
   "theorems": [
    "C109_direct_equals_adjoint"
   ],
   "note": "The override flag of a dependence object is excluded; see C112."
  },
  {
   "property": "C110",
   "status": "proved",
   "theorems": [
    "C110_adjoint_is_total_derivative",
    "C110_direct_is_total_derivative"
   ],
   "note": "The contracts of the element routines are hypotheses. For the adjoint the solution passed is the stored one; see C111."
  },
  {
   "property": "C111",
   "status": "partial",
   "theorems": [
    "C111_adjoint_at_solution_partial",
    "C111_direct_at_X",
    "C111_adjoint_elsewhere_refuted"
   ],
   "note": "The direct solve is at X. The adjoint solve assembles the Jacobian at the stored solution, so it is right only if X is the stored solution (refuted otherwise)."
  },
  {
   "property": "C112",
   "status": "partial",
   "theorems": [
    "C112_dependence",
    "C112_override_refuted"
   ],
   "note": "Holds without the override flag; with it the sensitivity of the solution is dropped from the output (refuted)."
  },
  {
   "property": "C113",
   "status": "proved",
   "theorems": [
    "C113_multiple_parameters",
    "C113_parts"
   ],
   "note": ""
  },
  {
   "property": "C114",
   "status": "partial",
   "theorems": [
    "C114_jacobian",
    "C114_constrained_rows",
    "C114_blanked_refuted"
   ],
   "note": "Up to the 1e-24 terms that diagonal subdomains add to dofs they share with active elements (exact remainder in the theorem; refuted without it)."
  },
  {
   "property": "C115",
   "status": "partial",
   "theorems": [
    "C115_eigenpairs",
    "C115_available",
    "C115_negative_exchange_refuted"
   ],
   "note": "Every retrieved pair is right. Retrieval fails for exchanged problems with a negative eigenvalue, although the pair converged (refuted)."
  },
  {
   "property": "C116",
   "status": "proved",
   "theorems": [
    "C116_eigenvalue_sensitivity",
    "C116_base_solution",
    "C116_base_sensitivity_needed"
   ],
   "note": "For the first sensitivity analysis after the eigenvalue analysis; see C117 for the following ones."
  },
  {
   "property": "C117",
   "status": "partial",
   "theorems": [
    "C117_second_call_refuted",
    "C117_after_stiffness_parameter_refuted",
    "C117_after_new_analysis_partial"
   ],
   "note": "Refuted: a sensitivity analysis overwrites the matrices by which get_eigenpair and later sensitivity analyses normalise. A new eigenvalue analysis restores the state."
  },
  {
   "property": "C118",
   "status": "partial",
   "theorems": [
    "C118_fixed_dofs_partial",
    "C118_hanging_dof_refuted",
    "C118_spurious"
   ],
   "note": "Holds for Dirichlet dofs; hanging dofs are left at zero (refuted), and without condensation constrained dofs have eigenpairs of their own."
  },
  {
   "property": "C119",
   "status": "partial",
   "theorems": [
    "C119_standard_refuted",
    "C119_standard_null",
    "C119_nonhermitian",
    "C119_indices",
    "C119_subset_refuted"
   ],
   "note": "Standard problems always fail and a strict subset of the eigenvalues is refused; for generalized Hermitian problems all requested indices are served in order."
  },
  {
   "property": "C120",
   "status": "proved",
   "theorems": [
    "C120_condensed",
    "C120_suits"
   ],
   "note": ""
  },
  {
   "property": "C121",
   "status": "proved",
   "theorems": [
    "C121_residual_is_weak_form",
    "C121_unknown_loads_refused"
   ],
   "note": ""
  },
  {
   "property": "C122",
   "status": "partial",
   "theorems": [
    "C122_tangent_partial",
    "C122_radiation_refuted"
   ],
   "note": "Proved unless the parameter moves the ambient or reference temperature or the Stefan-Boltzmann constant of a radiation load: surface_radiation_residual_sensitivity ignores their derivatives (refuted by a witness)."
  },
  {
   "property": "C123",
   "status": "partial",
   "theorems": [
    "C123_storage",
    "C123_storage_tangent_partial",
    "C123_lumped_refuted"
   ],
   "note": "Derivatives proved for a consistent capacity and for a lumped one that does not follow the temperature; refuted for a lumped temperature-dependent capacity, where the code keeps the consistent form of the derivative."
  },
  {
   "property": "C124",
   "status": "proved",
   "theorems": [
    "C124_heat_balance",
    "C124_uniform_temperature",
    "C124_symmetric",
    "C124_semidefinite"
   ],
   "note": ""
  },
  {
   "property": "C125",
   "status": "proved",
   "theorems": [
    "C125_boundary_velocity",
    "C125_storage_boundary_velocity"
   ],
   "note": "Loads on the sides of the element do not take part, as in the code."
  },
  {
   "property": "C126",
   "status": "proved",
   "theorems": [
    "C126_runs",
    "C126_energy_gradient",
    "C126_virtual_work"
   ],
   "note": "Without incompatible modes."
  },
  {
   "property": "C127",
   "status": "proved",
   "theorems": [
    "C127_tangent",
    "C127_symmetric",
    "C127_semidefinite",
    "C127_unused"
   ],
   "note": "Without incompatible modes."
  },
  {
   "property": "C128",
   "status": "proved",
   "theorems": [
    "C128_objective",
    "C128_rigid",
    "C128_small_rigid"
   ],
   "note": ""
  },
  {
   "property": "C129",
   "status": "proved",
   "theorems": [
    "C129_resultant",
    "C129_moment"
   ],
   "note": ""
  },
  {
   "property": "C130",
   "status": "proved",
   "theorems": [
    "C130_sensitivity"
   ],
   "note": ""
  },
  {
   "property": "C131",
   "status": "proved",
   "theorems": [
    "C131_energy",
    "C131_tangent",
    "C131_free_expansion"
   ],
   "note": "thermal_residual_sensitivity of this element is libmesh_error."
  },
  {
   "property": "C132",
   "status": "proved",
   "theorems": [
    "C132_work",
    "C132_resultant",
    "C132_sensitivity",
    "C132_follower"
   ],
   "note": ""
  },
  {
   "property": "C133",
   "status": "partial",
   "theorems": [
    "C133_mass_matrix",
    "C133_consistent_partial",
    "C133_total_partial",
    "C133_density_refuted",
    "C133_overwrites_refuted"
   ],
   "note": "Proved for a uniform density and an empty vector; the density of the first quadrature point is used everywhere, and the diagonal form overwrites the vector instead of adding (both refuted by witnesses)."
  },
  {
   "property": "C134",
   "status": "partial",
   "theorems": [
    "C134_stress_partial",
    "C134_thermal_refuted"
   ],
   "note": "The stress is C times the strain at every point; refuted for thermal loads: the thermal strain is not subtracted, so free expansion is reported as stress."
  },
  {
   "property": "C135",
   "status": "partial",
   "theorems": [
    "C135_axes",
    "C135_plate",
    "C135_beam",
    "C135_runs_plate",
    "C135_runs_beam",
    "C135_x_beam_refuted"
   ],
   "note": "Proved for every element that gets axes, with the exact condition; refuted for beams parallel to the x axis: they keep the global axes and the y vector of their section is ignored."
  },
  {
   "property": "C136",
   "status": "proved",
   "theorems": [
    "C136_points",
    "C136_vectors",
    "C136_components",
    "C136_none"
   ],
   "note": "Elements without local axes refuse the calls (C136_none)."
  },
  {
   "property": "C137",
   "status": "proved",
   "theorems": [
    "C137_vectors",
    "C137_round_trip",
    "C137_work",
    "C137_matrix",
    "C137_jacobian",
    "C137_sizes"
   ],
   "note": ""
  },
  {
   "property": "C138",
   "status": "partial",
   "theorems": [
    "C138_mass",
    "C138_power",
    "C138_symmetric",
    "C138_total",
    "C138_sensitivity",
    "C138_diagonal_refuted",
    "C138_solid_sensitivity_refuted"
   ],
   "note": "Rigid acceleration and power proved for the consistent form; the diagonal form uses the inertia of the first quadrature point (refuted for a varying density), and the base class refuses the 3x3 inertia of continuum elements in the sensitivity."
  },
  {
   "property": "C139",
   "status": "partial",
   "theorems": [
    "C139_linearized_refuted"
   ],
   "note": "Refuted for every element: the work vectors are six times too large and the call fails on the size check."
  },
  {
   "property": "C140",
   "status": "partial",
   "theorems": [
    "C140_energy",
    "C140_shear_refuted",
    "C140_storage_local",
    "C140_storage_global"
   ],
   "note": "For Timoshenko beams the two shear stiffnesses must be equal: both shear operators use row 0, so the shear in the x-z plane is weighted with the stiffness of the x-y plane (refuted otherwise)."
  },
  {
   "property": "C141",
   "status": "partial",
   "theorems": [
    "C141_jacobian",
    "C141_symmetric",
    "C141_bar_partial",
    "C141_bar_refuted"
   ],
   "note": "Exact with a bending model; without one, diagonal entries that are nearly zero are replaced by a small number (refuted), all others are exact."
  },
  {
   "property": "C142",
   "status": "proved",
   "theorems": [
    "C142_sensitivity",
    "C142_jacobian"
   ],
   "note": ""
  },
  {
   "property": "C143",
   "status": "partial",
   "theorems": [
    "C143_jacobian_dot_partial",
    "C143_jacobian_dot_refuted"
   ],
   "note": "Holds when the two entries of the extension-bending coupling agree; one block uses the wrong entry (refuted otherwise)."
  },
  {
   "property": "C144",
   "status": "partial",
   "theorems": [
    "C144_prestress_partial",
    "C144_prestress_jacobian",
    "C144_prestress_refuted",
    "C144_thermal_partial",
    "C144_thermal_jacobian",
    "C144_thermal_refuted",
    "C144_thermal_scaling_refuted"
   ],
   "note": "The work statement needs equal section moments: the moment about y enters with the value for z (refuted otherwise).  The matrix is the derivative unless thermal_jacobian_scaling differs from one (refuted)."
  },
  {
   "property": "C145",
   "status": "proved",
   "theorems": [
    "C145_prestress",
    "C145_thermal"
   ],
   "note": "The matrix of the thermal term for an unscaled Jacobian."
  },
  {
   "property": "C146",
   "status": "proved",
   "theorems": [
    "C146_fibre",
    "C146_cubic",
    "C146_rigid"
   ],
   "note": ""
  },
  {
   "property": "C147",
   "status": "proved",
   "theorems": [
    "C147_pressure",
    "C147_resultant",
    "C147_no_moment",
    "C147_sensitivity",
    "C147_follower"
   ],
   "note": ""
  },
  {
   "property": "C148",
   "status": "proved",
   "theorems": [
    "C148_energy"
   ],
   "note": "A and D symmetric, shear stiffness symmetric. DKT triangles with other positions or numberings: see C153."
  },
  {
   "property": "C149",
   "status": "partial",
   "theorems": [
    "C149_jacobian_partial",
    "C149_symmetric",
    "C149_jacobian_refuted",
    "C149_drilling_refuted"
   ],
   "note": "Exact, up to a stiffness 1e-8 of the rotation about the normal that belongs to no force, for the linear strain, for membranes and at states without in-plane displacement gradients; otherwise the blocks that couple the in-plane nonlinear strain with deflection and bending are missing (refuted)."
  },
  {
   "property": "C150",
   "status": "proved",
   "theorems": [
    "C150_sensitivity",
    "C150_jacobian"
   ],
   "note": ""
  },
  {
   "property": "C151",
   "status": "partial",
   "theorems": [
    "C151_jacobian_dot_partial",
    "C151_jacobian_dot_refuted"
   ],
   "note": "Exact for the linear strain, and for rows or columns without in-plane displacement when state and sensitivity have no in-plane displacement gradients; the in-plane nonlinear terms are missing (refuted otherwise)."
  },
  {
   "property": "C152",
   "status": "partial",
   "theorems": [
    "C152_prestress_partial",
    "C152_prestress_jacobian",
    "C152_prestress_refuted",
    "C152_prestress_sensitivity",
    "C152_thermal",
    "C152_thermal_jacobian",
    "C152_thermal_scaling_refuted",
    "C152_thermal_sensitivity"
   ],
   "note": "Prestress leaves out the nonlinear strain of the in-plane displacements that the internal force has (refuted for the full strain); a thermal_jacobian_scaling other than 1 makes the matrix inconsistent (refuted)."
  },
  {
   "property": "C153",
   "status": "partial",
   "theorems": [
    "C153_fibre",
    "C153_rigid",
    "C153_constant_curvature_partial",
    "C153_clockwise_refuted",
    "C153_inclined_refuted"
   ],
   "note": "The triangle must lie in a plane of constant z of the mesh and be numbered counterclockwise: clockwise numbering flips the sign of the deflection (a rigid rotation strains the triangle), and inclined triangles use gradients in the axes of the mesh (both refuted)."
  },
  {
   "property": "C154",
   "status": "proved",
   "theorems": [
    "C154_work",
    "C154_resultant",
    "C154_no_moment",
    "C154_sensitivity",
    "C154_boundary_velocity",
    "C154_linearized",
    "C154_frequency",
    "C154_refused"
   ],
   "note": ""
  },
  {
   "property": "C155",
   "status": "partial",
   "theorems": [
    "C155_traction_partial",
    "C155_traction_mesh_axes_partial",
    "C155_mesh_axes_refuted",
    "C155_traction_sensitivity",
    "C155_edge_pressure",
    "C155_edge_pressure_sensitivity",
    "C155_resultant",
    "C155_follower_refused"
   ],
   "note": "The components of the traction are read in the axes of the element; a traction given in the axes of the mesh is wrong on elements with axes of their own (refuted)."
  },
  {
   "property": "C156",
   "status": "proved",
   "theorems": [
    "C156_value",
    "C156_partials",
    "C156_parameter",
    "C156_mixed",
    "C156_subsonic",
    "C156_direction"
   ],
   "note": ""
  },
  {
   "property": "C157",
   "status": "partial",
   "theorems": [
    "C157_load",
    "C157_damping",
    "C157_stiffness_partial",
    "C157_stiffness_aligned_partial",
    "C157_stiffness_refuted",
    "C157_sensitivity",
    "C157_refused"
   ],
   "note": "The stiffness matrix lacks the term of the flow along the second axis of the element (exact missing term proved; refuted in general, exact for flow without that component). Elements without axes of their own, edges and follower forces are refused by assertions."
  },
  {
   "property": "C158",
   "status": "partial",
   "theorems": [
    "C158_load_partial",
    "C158_damping",
    "C158_stiffness",
    "C158_sensitivity",
    "C158_deflection_refuted"
   ],
   "note": "Only slope and velocity along the second axis of the beam are used, and the direction of the flow is not: deflection along the third axis gives no load (refuted)."
  },
  {
   "property": "C159",
   "status": "proved",
   "theorems": [
    "C159_sides",
    "C159_volume",
    "C159_unknown",
    "C159_order",
    "C159_sensitivity",
    "C159_linearized_sides"
   ],
   "note": ""
  },
  {
   "property": "C160",
   "status": "partial",
   "theorems": [
    "C160_value",
    "C160_derivative",
    "C160_sensitivity",
    "C160_order",
    "C160_free_expansion",
    "C160_weight_partial",
    "C160_weight_refuted"
   ],
   "note": "The weights of the four points are not divided by four: they add up to four times the length (refuted, exact value proved). Everything else is proved."
  },
  {
   "property": "C161",
   "status": "proved",
   "theorems": [
    "C161_value",
    "C161_derivative",
    "C161_sensitivity",
    "C161_order",
    "C161_free_expansion",
    "C161_weight"
   ],
   "note": ""
  },
  {
   "property": "C162",
   "status": "partial",
   "theorems": [
    "C162_moving_side",
    "C162_second_side",
    "C162_two_sides_refuted",
    "C162_temperature_partial",
    "C162_temperature_refuted",
    "C162_refused"
   ],
   "note": "A second moving side of an element is refused by an assertion (refuted); the derivative of the strain with respect to temperature is entered as zero (refuted), that of the stress is exact."
  },
  {
   "property": "C163",
   "status": "proved",
   "theorems": [
    "C163_value",
    "C163_bounds",
    "C163_monotone",
    "C163_scale",
    "C163_complement",
    "C163_output",
    "C163_distribution",
    "C163_sensitivity",
    "C163_sensitivity_sign",
    "C163_sensitivity_scale",
    "C163_refused"
   ],
   "note": ""
  },
  {
   "property": "C164",
   "status": "proved",
   "theorems": [
    "C164_value",
    "C164_bounds",
    "C164_monotone",
    "C164_complement",
    "C164_scale",
    "C164_sensitivity",
    "C164_refused"
   ],
   "note": ""
  },
  {
   "property": "C165",
   "status": "partial",
   "theorems": [
    "C165_value",
    "C165_positive",
    "C165_two_sides",
    "C165_rate",
    "C165_sensitivity",
    "C165_output",
    "C165_single_element_refuted",
    "C165_single_element_partial",
    "C165_steepness",
    "C165_region_refuted"
   ],
   "note": "The per-element sensitivity leaves out elements the interface does not cut although their perimeter is counted (refuted; exact on cut elements, and the output's total is exact); the perimeter scales with the inverse of the slope of the level set function (refuted)."
  },
  {
   "property": "C166",
   "status": "partial",
   "theorems": [
    "C166_value",
    "C166_runs",
    "C166_secant",
    "C166_balance",
    "C166_rate",
    "C166_motion",
    "C166_total_tangent",
    "C166_tangent_refuted",
    "C166_exact_motion_refuted",
    "C166_flat_refuted"
   ],
   "note": "Value, balance, rate term and the Jacobian's column sums are exact; row by row the Jacobian holds velocity and stabilisation coefficients fixed (refuted), the capturing term acts on exactly moving fields (refuted) and a flat spot divides by zero (refuted)."
  },
  {
   "property": "C167",
   "status": "partial",
   "theorems": [
    "C167_value",
    "C167_runs",
    "C167_balance",
    "C167_interface",
    "C167_sign",
    "C167_inputs",
    "C167_distance_partial",
    "C167_distance_refuted"
   ],
   "note": "A signed distance function is kept in total only: the capturing coefficient uses |V . grad phi| without the source (refuted; the remaining term is exact in the partial theorem)."
  },
  {
   "property": "C168",
   "status": "partial",
   "theorems": [
    "C168_level",
    "C168_unique",
    "C168_slowest",
    "C168_scale",
    "C168_runs",
    "C168_normal",
    "C168_normal_derivative",
    "C168_derivative_tangential",
    "C168_short_refuted"
   ],
   "note": "A normal vector with fewer than three entries is written past its end (refuted); the rest is proved."
  },
  {
   "property": "C169",
   "status": "partial",
   "theorems": [
    "C169_ends",
    "C169_foot",
    "C169_plane_partial",
    "C169_plane_runs",
    "C169_interface_point",
    "C169_interface_refuted"
   ],
   "note": "Curved level set functions are covered by termination only; for planes the exact position is proved, and that the search may stop half way (refuted)."
  },
  {
   "property": "C170",
   "status": "partial",
   "theorems": [
    "C170_parts_partial",
    "C170_runs_partial",
    "C170_checked_refuted"
   ],
   "note": "Builds with assertions always stop in the external residuals (refuted); without assertions the parts are exact."
  },
  {
   "property": "C171",
   "status": "partial",
   "theorems": [
    "C171_snapshot",
    "C171_shared",
    "C171_shared_refuted",
    "C171_owner",
    "C171_not_started",
    "C171_outside",
    "C171_second_init",
    "C171_failed_init_refuted",
    "C171_clear_partial"
   ],
   "note": "A failed init leaves the object half initialised: a retry is refused and an evaluation dereferences a null pointer (refuted) until clear (partial). A shared vector that is destroyed is used after free (refuted)."
  },
  {
   "property": "C172",
   "status": "partial",
   "theorems": [
    "C172_sensitivity",
    "C172_unknown",
    "C172_retry",
    "C172_gradient",
    "C172_is_derivative",
    "C172_quadrature",
    "C172_quadrature_refuted",
    "C172_perturbation_refuted"
   ],
   "note": "With a quadrature point solution in force, gradient, sensitivity and perturbation return that solution itself (refuted). No call sets the perturbation; perturbation_gradient checks the wrong pointer and dereferences null (refuted)."
  },
  {
   "property": "C173",
   "status": "proved",
   "theorems": [
    "C173_value",
    "C173_perturbation",
    "C173_cleared",
    "C173_owner",
    "C173_outside"
   ],
   "note": ""
  },
  {
   "property": "C174",
   "status": "partial",
   "theorems": [
    "C174_value",
    "C174_runs",
    "C174_derivative",
    "C174_again",
    "C174_remote_refuted",
    "C174_stale_refuted"
   ],
   "note": "Elements of other processes cannot be evaluated (refuted); clearing the fractions keeps the old sensitivities (refuted)."
  },
  {
   "property": "C175",
   "status": "partial",
   "theorems": [
    "C175_value_refuted"
   ],
   "note": "The loops run from begin to begin, so that nothing is ever stored: no history gives a value (refuted for every mesh)."
  },
  {
   "property": "C176",
   "status": "partial",
   "theorems": [
    "C176_weights",
    "C176_closer",
    "C176_ratio",
    "C176_value",
    "C176_translation",
    "C176_rigid_partial",
    "C176_y_partial",
    "C176_mirrored",
    "C176_rigid_refuted",
    "C176_few_dofs_refuted"
   ],
   "note": "The lever arm terms of the x and z rows have the wrong sign, so that rotations are followed only if the slave is at the weighted centre of its masters (refuted otherwise; y row right). Masters with fewer than six unknowns are read out of bounds (refuted)."
  },
  {
   "property": "C177",
   "status": "partial",
   "theorems": [
    "C177_all_kept",
    "C177_twice_refused",
    "C177_twice_refuted",
    "C177_late_refused",
    "C177_late_refuted",
    "C177_rows",
    "C177_dof_map",
    "C177_occupied",
    "C177_again",
    "C177_half_added_refuted"
   ],
   "note": "Second and late additions are refused in debug builds only; in release builds a later coupling silently replaces the earlier one (refuted). When a row is refused the rows before it stay in the dof map (refuted)."
  },
  {
   "property": "C178",
   "status": "partial",
   "theorems": [
    "C178_masters_boundary",
    "C178_masters_subdomain",
    "C178_slaves",
    "C178_runs",
    "C178_handed_on",
    "C178_unmatched_refuted",
    "C178_unmatched_found",
    "C178_own_master_refuted",
    "C178_two_calls_refuted"
   ],
   "note": "A slave without a master in the radius is clamped to zero (refuted); a node of both sets can be its own master and two calls for the same slave set collide (refuted)."
  },
  {
   "property": "C179",
   "status": "partial",
   "theorems": [
    "C179_runs",
    "C179_not_empty",
    "C179_unknown",
    "C179_rigid",
    "C179_independent",
    "C179_translation",
    "C179_rotation",
    "C179_first_order_partial",
    "C179_linear_refuted"
   ],
   "note": "The rotation modes are finite rotations: distances are kept exactly, but their linear strain is not zero (refuted); it vanishes to first order in the angle."
  },
  {
   "property": "C180",
   "status": "partial",
   "theorems": [
    "C180_value",
    "C180_distribution",
    "C180_linear",
    "C180_equilibrium",
    "C180_energy_partial",
    "C180_point_loads_refuted"
   ],
   "note": "Point loads are not counted (refuted)."
  },
  {
   "property": "C181",
   "status": "partial",
   "theorems": [
    "C181_dead_partial",
    "C181_total_derivative",
    "C181_follower",
    "C181_follower_refuted",
    "C181_topology"
   ],
   "note": "For loads that follow the solution the derivative of the load is missing; exact formula and a case off by a factor of two."
  },
  {
   "property": "C182",
   "status": "partial",
   "theorems": [
    "C182_rows",
    "C182_material_kept",
    "C182_again",
    "C182_order",
    "C182_parallel_covers",
    "C182_parallel_partial",
    "C182_parallel_refuted",
    "C182_on_boundary_refuted"
   ],
   "note": "Each process looks at its own elements only, so that unknowns needed by material elements of another process are clamped (refuted); on one process the statement holds. With the option for nodes on the boundary, nodes exactly on it are clamped (refuted)."
  },
  {
   "property": "C183",
   "status": "partial",
   "theorems": [
    "C183_rows",
    "C183_cut_kept",
    "C183_silent",
    "C183_uncut_refuted",
    "C183_parallel_refuted"
   ],
   "note": "Elements wholly inside of the indicator do not keep their unknowns (refuted); same restriction to the own elements as C182."
  },
  {
   "property": "C184",
   "status": "proved",
   "theorems": [
    "C184_runs",
    "C184_interior",
    "C184_storage",
    "C184_walls",
    "C184_balance"
   ],
   "note": "Inviscid flows. The shape functions sum up to one; the intrinsic time matrix and the shock capturing coefficient are arbitrary functions."
  },
  {
   "property": "C185",
   "status": "partial",
   "theorems": [
    "C185_derivative",
    "C185_uniform_partial",
    "C185_linearized",
    "C185_rate",
    "C185_rate_frozen",
    "C185_frozen_refuted"
   ],
   "note": "Exact derivative with the two terms the matrix leaves out (change of the intrinsic time matrix and of the shock capturing coefficient); exact in uniform flows; refuted in general. The matrix of the rate term with respect to the solution is left at zero."
  },
  {
   "property": "C186",
   "status": "partial",
   "theorems": [
    "C186_derivative_partial",
    "C186_runs",
    "C186_inflow_refuted"
   ],
   "note": "Exact for symmetry and slip walls, also moving ones, and for far fields at the flow far away or with outflow faster than sound; refuted for supersonic inflow, where the matrix is zero. The no-slip wall is not modelled."
  },
  {
   "property": "C187",
   "status": "proved",
   "theorems": [
    "C187_consistent",
    "C187_outflow",
    "C187_inflow",
    "C187_free_stream"
   ],
   "note": "Inviscid flows, normals of length one."
  },
  {
   "property": "C188",
   "status": "partial",
   "theorems": [
    "C188_runs",
    "C188_one_partial",
    "C188_many",
    "C188_gradient",
    "C188_sensitivity",
    "C188_direction",
    "C188_two_refuted"
   ],
   "note": "The force vector is not cleared between the sides of an element: with several sides on the boundary every side counts again for each later one (exact count proved, sum refuted). Inviscid part."
  },
  {
   "property": "C189",
   "status": "partial",
   "theorems": [
    "C189_walls",
    "C189_density_partial",
    "C189_line",
    "C189_mach_refuted",
    "C189_space_refuted"
   ],
   "note": "Holds for plane flows and the density; the parameter is not looked at (refuted for the Mach number), in space the energy is written into the third momentum (refuted) and on a line out of bounds."
  },
  {
   "property": "C190",
   "status": "partial",
   "theorems": [
    "C190_root_solves",
    "C190_complete",
    "C190_flag",
    "C190_infinite_refuted"
   ],
   "note": "Exact for finite eigenvalues; an infinite eigenvalue is not flagged and appears as a physical root at zero speed."
  },
  {
   "property": "C191",
   "status": "partial",
   "theorems": [
    "C191_parameter_partial",
    "C191_reduced_frequency",
    "C191_flow_parameter_refuted"
   ],
   "note": "Exact for the reduced frequency and for parameters of the structure; the aerodynamic matrix is taken as constant in the parameter and the sensitivity of the base solution is ignored (refuted)."
  },
  {
   "property": "C192",
   "status": "partial",
   "theorems": [
    "C192_sweep",
    "C192_sweep_total",
    "C192_crossovers_partial",
    "C192_exactly_once",
    "C192_large_damping_refuted",
    "C192_single_solution_refuted",
    "C192_again"
   ],
   "note": "Exact set of entries for every sweep; sign changes with a damping of 3/4 or more are dropped, and a sweep with a single solution reads behind the map."
  },
  {
   "property": "C193",
   "status": "partial",
   "theorems": [
    "C193_search",
    "C193_search_total",
    "C193_critical_partial",
    "C193_terminates",
    "C193_lowest_refuted",
    "C193_converged_refuted",
    "C193_zero_speed_refuted",
    "C193_next"
   ],
   "note": "Lowest of the roots found so far, no crossover lost, termination; not the lowest of all crossovers, true without convergence, null dereference for zero iterations, zero speed for infinite eigenvalues."
  },
  {
   "property": "C194",
   "status": "partial",
   "theorems": [
    "C194_pencil_partial",
    "C194_total",
    "C194_analysis_refuted",
    "C194_scan_refuted"
   ],
   "note": "The pencil is right for matrices of twice the number of modes; the caller passes matrices of size zero, so every analysis and scan with at least one mode fails."
  },
  {
   "property": "C195",
   "status": "partial",
   "theorems": [
    "C195_first_kept",
    "C195_history_total",
    "C195_scan_highest_partial",
    "C195_closest_refuted",
    "C195_merged"
   ],
   "note": "The comparison is with zero, so the first root stored at a speed is never replaced and only the highest reduced frequency counts."
  },
  {
   "property": "C196",
   "status": "proved",
   "theorems": [
    "C196_partition",
    "C196_local",
    "C196_roundtrip"
   ],
   "note": "Index sets as built in solve(), any number of processes and disciplines."
  },
  {
   "property": "C197",
   "status": "partial",
   "theorems": [
    "C197_residual",
    "C197_argument_partial",
    "C197_missing",
    "C197_argument_refuted"
   ],
   "note": "The residual is exact; the solver's own iterate is overwritten by its constrained version (refuted), unchanged only if it satisfies the constraints."
  },
  {
   "property": "C198",
   "status": "partial",
   "theorems": [
    "C198_jacobian_partial",
    "C198_own_refuted",
    "C198_overwrites_refuted"
   ],
   "note": "Exact for directions that respect the constraints and data that do not depend on the discipline's own solution; otherwise refuted, and the product overwrites its argument."
  },
  {
   "property": "C199",
   "status": "partial",
   "theorems": [
    "C199_solve",
    "C199_solution",
    "C199_local_refuted",
    "C199_convergence_refuted"
   ],
   "note": "Start, stored blocks and faults exact; the local copies stay stale and non-convergence is not reported (refuted)."
  },
  {
   "property": "C200",
   "status": "proved",
   "theorems": [
    "C200_residual",
    "C200_post",
    "C200_jacobian",
    "C200_distribution",
    "C200_nothing"
   ],
   "note": "Element operators satisfy the stated derivative contract; time scheme as an affine map of the new unknowns."
  },
  {
   "property": "C201",
   "status": "partial",
   "theorems": [
    "C201_product_partial",
    "C201_inadmissible_refuted",
    "C201_post_refuted"
   ],
   "note": "Equal for directions that respect the constraints and without a post assembly operation; refuted otherwise."
  },
  {
   "property": "C202",
   "status": "proved",
   "theorems": [
    "C202_sensitivity"
   ],
   "note": "Element sensitivities and the contribution of earlier steps satisfy the stated derivative contract."
  },
  {
   "property": "C203",
   "status": "partial",
   "theorems": [
    "C203_reduced_partial",
    "C203_symmetric",
    "C203_distribution",
    "C203_total",
    "C203_inadmissible_refuted",
    "C203_hanging_refuted"
   ],
   "note": "Exact for modes that respect the constraints and constraints inside the elements; hanging nodes stop it and other modes are given spurious terms (refuted)."
  },
  {
   "property": "C204",
   "status": "partial",
   "theorems": [
    "C204_base_partial",
    "C204_rest_partial",
    "C204_missing",
    "C204_load_refuted"
   ],
   "note": "With and without base solution, after any history, if inertia and loads do not depend on the base solution; refuted for loads that do."
  },
  {
   "property": "C205",
   "status": "partial",
   "theorems": [
    "C205_forces_partial",
    "C205_generalised_partial",
    "C205_empty_refuted",
    "C205_parameter_refuted"
   ],
   "note": "Exact for the matrix itself; no modes reads out of bounds, and for a parameter only the change of the flow is differentiated (refuted)."
  },
  {
   "property": "C206",
   "status": "partial",
   "theorems": [
    "C206_cycle_partial",
    "C206_again_refuted",
    "C206_detach_refuted"
   ],
   "note": "Flow solver, flow assembly and flow operations are freed; the structural element operations stay attached (refuted)."
  },
  {
   "property": "C207",
   "status": "partial",
   "theorems": [
    "C207_choose",
    "C207_element_partial",
    "C207_sound",
    "C207_listed_refuted",
    "C207_twice_refuted",
    "C207_side"
   ],
   "note": "Exact for at most one refinement of listed unrefined elements; a listed refined element and a twice refined one are missed (refuted)."
  },
  {
   "property": "C208",
   "status": "partial",
   "theorems": [
    "C208_adjoint_partial",
    "C208_subset_refuted",
    "C208_unheated_refuted",
    "C208_not_ready"
   ],
   "note": "Exact if every element of the output is heated and every heated element is in the output; refuted otherwise."
  },
  {
   "property": "C209",
   "status": "partial",
   "theorems": [
    "C209_eigenpairs_partial",
    "C209_standard_partial",
    "C209_values",
    "C209_failed",
    "C209_failure_refuted",
    "C209_stale_refuted",
    "C209_refused"
   ],
   "note": "Eigenpairs after success; a failed call unpacks before it checks and may read out of bounds, and computing without vectors leaves the old ones (refuted)."
  },
  {
   "property": "C210",
   "status": "partial",
   "theorems": [
    "C210_real_partial",
    "C210_complex_partial",
    "C210_complex_refuted",
    "C210_singular_refuted"
   ],
   "note": "Product one for real problems, of modulus one for complex ones; the complex left vectors are scaled without conjugation (refuted)."
  },
  {
   "property": "C211",
   "status": "partial",
   "theorems": [
    "C211_enough_partial",
    "C211_empty_refuted",
    "C211_logical_refuted"
   ],
   "note": "Enough for positive sizes; too little for size zero, and zggevx passes bool where LOGICAL is expected (refuted)."
  },
  {
   "property": "C212",
   "status": "partial",
   "theorems": [
    "C212_hermitian",
    "C212_value",
    "C212_imaginary_refuted",
    "C212_dropped_refuted",
    "C212_refused"
   ],
   "note": "Exact for Hermitian problems and for values; otherwise the imaginary vector is a null pointer or dropped (refuted)."
  },
  {
   "property": "C213",
   "status": "partial",
   "theorems": [
    "C213_residual_partial",
    "C213_plain",
    "C213_jacobian_partial",
    "C213_exact",
    "C213_condensed_partial",
    "C213_distribution",
    "C213_refused",
    "C213_void_refuted",
    "C213_threshold_refuted"
   ],
   "note": "Sum, derivative and condensation for every mesh and distribution; the void diagonal is not part of the residual, and an indicator exactly at the threshold gives no entry (refuted)."
  },
  {
   "property": "C214",
   "status": "partial",
   "theorems": [
    "C214_sensitivity_partial",
    "C214_velocity",
    "C214_factored",
    "C214_stale_refuted",
    "C214_factored_refuted",
    "C214_unset_refuted"
   ],
   "note": "Exact without homogenised elements if no sub-element without interface follows one with it; otherwise a boundary term is counted again, and homogenised elements use another sensitivity than their residual (refuted)."
  },
  {
   "property": "C215",
   "status": "partial",
   "theorems": [
    "C215_output",
    "C215_derivative_partial",
    "C215_plain",
    "C215_low_refuted",
    "C215_hidden_refuted",
    "C215_unset_refuted"
   ],
   "note": "Output for every mesh, gradient without homogenised negative sides; otherwise refuted."
  },
  {
   "property": "C216",
   "status": "partial",
   "theorems": [
    "C216_sensitivity_partial",
    "C216_refused",
    "C216_factored_refuted",
    "C216_null_refuted"
   ],
   "note": "Exact without homogenised elements; void unknowns keep their sensitivity and a missing sensitivity is dereferenced (refuted)."
  },
  {
   "property": "C217",
   "status": "partial",
   "theorems": [
    "C217_memory",
    "C217_replace_partial",
    "C217_velocity_refuted",
    "C217_indicator_refuted"
   ],
   "note": "No double free nor leak in any sequence; a new level set is used, but the velocity survives clearing and the indicator cannot be replaced (refuted)."
  },
  {
   "property": "C218",
   "status": "partial",
   "theorems": [
    "C218_matrices_partial",
    "C218_whole",
    "C218_distribution",
    "C218_refused",
    "C218_cut_refuted",
    "C218_void_refuted",
    "C218_hanging_refuted"
   ],
   "note": "Exact if no element is cut, and independent of the distribution; a cut element is integrated whole, the void leaves rows of zeros in both matrices, and a constraint reaching out of an element stops the program (refuted)."
  },
  {
   "property": "C219",
   "status": "partial",
   "theorems": [
    "C219_sensitivity_partial",
    "C219_velocity",
    "C219_eigenvalue_refuted",
    "C219_inconsistent_refuted",
    "C219_base_refuted",
    "C219_unset_refuted"
   ],
   "note": "The first matrix is the derivative and the second one is added to what was there; since it is not zeroed every eigenvalue sensitivity is wrong by the eigenvalue (refuted), and cut elements are treated differently from the analysis (refuted)."
  },
  {
   "property": "C220",
   "status": "partial",
   "theorems": [
    "C220_field",
    "C220_distribution",
    "C220_refused",
    "C220_kept",
    "C220_output_refuted"
   ],
   "note": "The field is proved in full; the output is cleared for every element and ends up with the data of the last one only (refuted)."
  },
  {
   "property": "C221",
   "status": "partial",
   "theorems": [
    "C221_single_partial",
    "C221_values_refuted",
    "C221_wrong_refuted"
   ],
   "note": "The derivative with one evaluation point per element; with several the field returned is the stress field itself, whatever the parameter (refuted)."
  },
  {
   "property": "C222",
   "status": "partial",
   "theorems": [
    "C222_field_partial",
    "C222_distribution",
    "C222_cleared",
    "C222_twice",
    "C222_subset_refuted",
    "C222_unset_refuted",
    "C222_leak_refuted"
   ],
   "note": "Exact if every element with material participates; a subset stops the program, a missing level set is dereferenced and the destructor leaks the intersection (refuted)."
  },
  {
   "property": "C223",
   "status": "partial",
   "theorems": [
    "C223_step",
    "C223_full_partial",
    "C223_damped",
    "C223_untouched",
    "C223_start",
    "C223_idle",
    "C223_missing",
    "C223_init_twice",
    "C223_reattach",
    "C223_damped_refuted",
    "C223_cancel_refuted"
   ],
   "note": "A Newton step of the void equations per iteration, exact for linear elements and full steps; a step shortened by the line search leaves a residual in the void, and detaching removes the monitors of others (refuted)."
  },
  {
   "property": "C224",
   "status": "partial",
   "theorems": [
    "C224_value_partial",
    "C224_perturbation_partial",
    "C224_complex_partial",
    "C224_unset",
    "C224_reference",
    "C224_still_refuted"
   ],
   "note": "Exact for physical states and, if a coefficient is asked for, a moving fluid; a fluid at rest divides by zero (refuted)."
  },
  {
   "property": "C225",
   "status": "partial",
   "theorems": [
    "C225_value",
    "C225_sensitivity_partial",
    "C225_derivative_partial",
    "C225_mode",
    "C225_zero_refuted",
    "C225_direction_refuted",
    "C225_stale_refuted",
    "C225_unknown",
    "C225_zero_derivative_refuted"
   ],
   "note": "The value in full, the derivatives away from a zero load; the default direction is normalised although zero and a new load keeps the sensitivities of the old one (refuted)."
  },
  {
   "property": "C226",
   "status": "partial",
   "theorems": [
    "C226_fresh",
    "C226_matrices_partial",
    "C226_data",
    "C226_unset",
    "C226_distribution",
    "C226_second_refuted",
    "C226_leak_refuted",
    "C226_hanging_refuted"
   ],
   "note": "Exact without assertions; the element object is never released, so that the second element of a process fails an assertion or leaks, the load parameter is left at the second value, and a constraint reaching out of an element writes past the solution (refuted)."
  },
  {
   "property": "C227",
   "status": "partial",
   "theorems": [
    "C227_estimate",
    "C227_affine",
    "C227_complete_partial",
    "C227_infinite_refuted",
    "C227_division_refuted"
   ],
   "note": "Both formulations; without linearisation a second state that is itself critical has no eigenvalue, and the value -1 divides by zero (refuted)."
  },
  {
   "property": "C228",
   "status": "partial",
   "theorems": [
    "C228_refused",
    "C228_value_partial",
    "C228_error",
    "C228_wrong_refuted",
    "C228_held_refuted"
   ],
   "note": "The value computed and its error: the derivative of the second matrix is missing, and the load parameter is left at the second state (refuted)."
  },
  {
   "property": "C229",
   "status": "partial",
   "theorems": [
    "C229_second",
    "C229_first",
    "C229_highest",
    "C229_parts_refuted"
   ],
   "note": "The matrices are exact for every scheme; the rate Jacobian of the loads is filed with the inertial vector though the loads are in the other one (refuted)."
  },
  {
   "property": "C230",
   "status": "partial",
   "theorems": [
    "C230_balance",
    "C230_unasked",
    "C230_rest",
    "C230_stiffness",
    "C230_prestress_refuted"
   ],
   "note": "All but prestress, which neither statics nor dynamics counts (refuted)."
  },
  {
   "property": "C231",
   "status": "partial",
   "theorems": [
    "C231_sensitivity_partial",
    "C231_product_partial",
    "C231_undamped_partial",
    "C231_first_refuted",
    "C231_inertia_refuted",
    "C231_damping_refuted"
   ],
   "note": "Exact for the second order, the product only without damping; for the first order both read an acceleration that is not set, and the sensitivity counts an inertial force that the residual does not have (refuted)."
  },
  {
   "property": "C232",
   "status": "proved",
   "theorems": [
    "C232_interior",
    "C232_harmonic",
    "C232_reduced",
    "C232_sides",
    "C232_refused",
    "C232_runs"
   ],
   "note": ""
  },
  {
   "property": "C233",
   "status": "partial",
   "theorems": [
    "C233_wall_partial",
    "C233_error",
    "C233_side",
    "C233_matrix_partial",
    "C233_refused",
    "C233_conjugate_refuted",
    "C233_turned_refuted"
   ],
   "note": "Right for walls that move in phase and normals that the steady motion does not turn; Eigen's dot conjugates its first argument, so an imaginary displacement enters with the wrong sign (refuted); the general error is given by C233_error. Known weakness: the statements take the harmonic turn of the normal from the model's own helper wall_dn, so a program that drops that turn is not caught."
  },
  {
   "property": "C234",
   "status": "partial",
   "theorems": [
    "C234_interior_partial",
    "C234_wall_partial",
    "C234_sides",
    "C234_refused",
    "C234_null",
    "C234_factor_refuted",
    "C234_rotation_refuted",
    "C234_amplitude_refuted"
   ],
   "note": "Exact for a scale of time that does not depend on the parameter; missed are that dependence, the turned normal of a wall given by its velocity, and, at walls, the dependence of the amplitude (refuted)."
  },
  {
   "property": "C235",
   "status": "partial",
   "theorems": [
    "C235_compare",
    "C235_bound",
    "C235_symmetric_refuted",
    "C235_matrix",
    "C235_sizes"
   ],
   "note": "The difference is taken relative to the first value, so the order matters (refuted)."
  },
  {
   "property": "C236",
   "status": "partial",
   "theorems": [
    "C236_prints",
    "C236_right_partial",
    "C236_wrong",
    "C236_steep_refuted",
    "C236_adds_refuted",
    "C236_unheard_refuted"
   ],
   "note": "Nothing is raised for residuals whose derivative varies by at most ten per unit; the fixed step reports right matrices of steeper ones, an element that adds to its vector is reported, and the result of the comparison is not passed on (refuted)."
  },
  {
   "property": "C237",
   "status": "partial",
   "theorems": [
    "C237_residual",
    "C237_jacobian",
    "C237_distribution",
    "C237_refused",
    "C237_reference",
    "C237_held_refuted",
    "C237_post_refuted"
   ],
   "note": "The reference is kept by address: writing the vector afterwards changes the equations, and the operation after the assembly is not called (refuted)."
  },
  {
   "property": "C238",
   "status": "partial",
   "theorems": [
    "C238_sides",
    "C238_still",
    "C238_refused"
   ],
   "note": "For far fields at whose points the flow is the flow far away or leaves faster than sound (hypothesis settled of C186)."
  },
  {
   "property": "C239",
   "status": "partial",
   "theorems": [
    "C239_balance",
    "C239_rate",
    "C239_asked",
    "C239_product",
    "C239_derivative_partial",
    "C239_frozen_refuted",
    "C239_density_partial",
    "C239_mach_refuted"
   ],
   "note": "The product is the derivative about uniform flows at rest in time; elsewhere the frozen stabilisation makes it differ (refuted).  Sensitivity for the density in the plane; other parameters get the same value (refuted)."
  },
  {
   "property": "C240",
   "status": "partial",
   "theorems": [
    "C240_parts",
    "C240_sensitivity_parts",
    "C240_affine_partial",
    "C240_solved_partial",
    "C240_unforced_partial",
    "C240_asked",
    "C240_derivative_partial",
    "C240_frequency_partial",
    "C240_keeps",
    "C240_session",
    "C240_every",
    "C240_refused",
    "C240_turned_refuted"
   ],
   "note": "Slope and linear solve where the base motion turns the normal of no wall (refuted otherwise); derivative at a fixed scale of time, and where there are slip walls at a fixed amplitude (see C234 for what fails)."
  },
  {
   "property": "C241",
   "status": "partial",
   "theorems": [
    "C241_runs",
    "C241_value",
    "C241_measured",
    "C241_consistent",
    "C241_uniform",
    "C241_scales",
    "C241_dissipates",
    "C241_refused",
    "C241_switch_refuted"
   ],
   "note": "Without the pressure switch; with it the computation always stops at an assertion (C241_switch_refuted). The inverse of the element map is an argument."
  }
 ]
}