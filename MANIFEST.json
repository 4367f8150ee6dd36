{
 "claims": [
  {
   "property": "C01",
   "status": "proved",
   "theorems": [
    "C01_process_count_independence",
    "C01_parallel_equals_reference"
   ],
   "note": "PropParallel.v; all maximal executions on any two process counts, any vectors/steps satisfying app_laws, conv_crit 0/1, zero initial guess"
  },
  {
   "property": "C02",
   "status": "proved",
   "theorems": [
    "C02_no_deadlock"
   ],
   "note": "PropParallel.v; WaitAll with most pessimistic buffering"
  },
  {
   "property": "C03",
   "status": "proved",
   "theorems": [
    "C03_deterministic",
    "C03_confluent"
   ],
   "note": "PropParallel.v; arbitrary programs of the network language"
  },
  {
   "property": "C04",
   "status": "proved",
   "theorems": [
    "C04_unique_owner",
    "C04_blocks_tile_in_rank_order",
    "C04_finest_level_balanced",
    "C04_local_times"
   ],
   "note": "PropSetup.v"
  },
  {
   "property": "C05",
   "status": "proved",
   "theorems": [
    "C05_partners_agree",
    "C05_partners_exist",
    "C05_boundary_messages"
   ],
   "note": "PropSetup.v"
  },
  {
   "property": "C06",
   "status": "proved",
   "theorems": [
    "C06_split_into",
    "C06_blocks_tile",
    "C06_float_split_into",
    "C06_float_quotient",
    "C06_float_sum_below_2_53_refuted"
   ],
   "note": "PropSetup.v (exact division), PropSplitFloat.v (double precision: proved below 2^52; the bound 2^53 of the statement is refuted)"
  },
  {
   "property": "C07",
   "status": "proved",
   "theorems": [
    "C07_f_relax"
   ],
   "note": "PropPhases.v; network-level statement over all states the solver can hold, all process counts and schedules"
  },
  {
   "property": "C08",
   "status": "proved",
   "theorems": [
    "C08_fixed_point",
    "C08_stays_solved"
   ],
   "note": "PropAlgebra.v; arbitrary steps, exact vector arithmetic"
  },
  {
   "property": "C09",
   "status": "proved",
   "theorems": [
    "C09_finite_termination",
    "C09_finite_termination_lossless",
    "C09_exact_after_enough_iterations"
   ],
   "note": "PropAlgebra.v; the stronger bound k*(cf+1) holds for any number of levels with copy-type transfers"
  },
  {
   "property": "C10",
   "status": "proved",
   "theorems": [
    "C10_zero_residual_iff_solved"
   ],
   "note": "PropAlgebra.v"
  },
  {
   "property": "C11",
   "status": "proved",
   "theorems": [
    "C11_one_level"
   ],
   "note": "PropParallel.v"
  },
  {
   "property": "C12",
   "status": "proved",
   "theorems": [
    "C12_initial_value"
   ],
   "note": "PropParallel.v; final state and every state seen by output_fcn"
  },
  {
   "property": "C13",
   "status": "proved",
   "theorems": [
    "C13_iteration_control"
   ],
   "note": "PropParallel.v"
  },
  {
   "property": "C14",
   "status": "proved",
   "theorems": [
    "C14_reported_history",
    "C14_complete_history",
    "C14_one_value_per_iteration_refuted",
    "C14_second_solve_refuted"
   ],
   "note": "PropHistory.v; exact description of the returned array, complete if no value is an exact zero; the unconditional statement is refuted"
  },
  {
   "property": "C15",
   "status": "proved",
   "theorems": [
    "C15_output_calls",
    "C15_last_output_is_result"
   ],
   "note": "PropParallel.v"
  },
  {
   "property": "C16",
   "status": "proved",
   "theorems": [
    "C16_nested_iteration"
   ],
   "note": "PropPhases.v; needs that adding the zero right-hand side of the coarse level is neutral"
  },
  {
   "property": "C17",
   "status": "proved",
   "theorems": [
    "C17_accepted_iff",
    "C17_rejected_raises"
   ],
   "note": "PropSetup.v"
  },
  {
   "property": "C18",
   "status": "proved",
   "theorems": [
    "C18_initial_value_refuted"
   ],
   "note": "PropRefuted.v; refuted: an accepted hierarchy without the first point makes rank 0 wait for itself after overwriting the initial value"
  },
  {
   "property": "C19",
   "status": "proved",
   "theorems": [
    "C19_grids",
    "C19_total",
    "C19_valid_and_accepted"
   ],
   "note": "PropSetup.v"
  },
  {
   "property": "C20",
   "status": "proved",
   "theorems": [
    "C20_warning_condition",
    "C20_warning_refuted"
   ],
   "note": "PropSetup.v; the exact condition is proved, the property as stated is refuted"
  },
  {
   "property": "C21",
   "status": "proved",
   "theorems": [
    "C21_product"
   ],
   "note": "PropSetup.v"
  },
  {
   "property": "C22",
   "status": "proved",
   "theorems": [
    "C22_no_space_parallelism",
    "C22_space_parallel_raises",
    "C22_own_communicator_refuted"
   ],
   "note": "WorldCrit.v, PropWorld.v; the property holds without space parallelism and fails for every split with space size > 1"
  },
  {
   "property": "C23",
   "status": "proved",
   "theorems": [
    "C23_order_ok",
    "C23_uniform_order_ok",
    "C23_simple_setup_order_ok",
    "C23_simple_setup_process_count",
    "C23_order_refuted",
    "C23_process_count_independence_refuted"
   ],
   "note": "PropSet.v; CPython's hash set modelled slot by slot; refuted for non-uniform coarsening with a run whose result depends on the number of processes"
  },
  {
   "property": "C24",
   "status": "proved",
   "theorems": [
    "C24_process_count_independence_refuted"
   ],
   "note": "PropRefuted.v; refuted by a hierarchy with neighbouring C-points"
  },
  {
   "property": "C25",
   "status": "proved",
   "theorems": [
    "C25_full_distance_is_mgrit",
    "C25_coarse_solve"
   ],
   "note": "PropAtMgrit.v; AtMgrit on one process; with copies equal to originals; C25_coarse_solve with distance 1 says that the coarsest values are copied"
  },
  {
   "property": "C26",
   "status": "proved",
   "theorems": [
    "C26_process_count_independence_refuted",
    "C26_parallel_never_returns",
    "C26_single_level_does_nothing"
   ],
   "note": "PropAtMgrit.v; refuted: no execution on two or more processes returns on process 0"
  },
  {
   "property": "C27",
   "status": "proved",
   "theorems": [
    "C27_messages_wanted_in_order",
    "C27_tags_consecutive",
    "C27_tags_alone_identify_messages_refuted"
   ],
   "note": "PropTags.v; every receive is served by the oldest message of its queue, which was sent for the same level and operation; tags alone are refuted as identification (two levels collide)"
  },
  {
   "property": "C28",
   "status": "proved",
   "theorems": [
    "C28_roundtrip",
    "C28_pair_roundtrip_iff",
    "C28_pair_roundtrip_refuted",
    "C28_machine_values_roundtrip",
    "C28_machine_values_roundtrip_refuted"
   ],
   "note": "PropVectors.v; proved for all classes but VectorHeat1D2Pts (dtau is lost, exact condition proved) and the set_values/get_values pair of VectorMachine with an empty back part; both refuted"
  },
  {
   "property": "C29",
   "status": "proved",
   "theorems": [
    "C29_dahlquist_laws",
    "C29_array_laws",
    "C29_array2_laws",
    "C29_pair_laws",
    "C29_machine_laws",
    "C29_machine_norm_refuted",
    "C29_orbit_laws",
    "C29_solver_hypotheses"
   ],
   "note": "PropVectors.v; over the stdlib reals; C29_solver_hypotheses instantiates the hypotheses of C08-C10 for the shipped vectors; the norm of VectorMachine is not a norm (refuted)"
  },
  {
   "property": "C30",
   "status": "proved",
   "theorems": [
    "C30_copy_identity",
    "C30_machine_restrict_interpolate",
    "C30_machine_interpolation_total_refuted",
    "C30_heat_transfer_shapes",
    "C30_heat_transfer_shapes_even_refuted",
    "C30_heat_interpolation_values",
    "C30_heat_restriction_values",
    "C30_heat_transfer_adjoint"
   ],
   "note": "PropVectors.v; the pair of the documentation keeps shapes for odd fine sizes only (even sizes refuted)"
  },
  {
   "property": "C31",
   "status": "proved",
   "theorems": [
    "C31_dahlquist",
    "C31_midpoint_iff",
    "C31_midpoint_refuted"
   ],
   "note": "PropApps.v; BE, FE, TR proved with uniqueness; MR holds exactly for lambda = -1, zero step or zero state, refuted otherwise"
  },
  {
   "property": "C32",
   "status": "proved",
   "theorems": [
    "C32_heat1d_matrix",
    "C32_heat1d_step",
    "C32_heat1d_maximum",
    "C32_heat2d_matrix",
    "C32_heat2d_step",
    "C32_heat2d_maximum"
   ],
   "note": "PropApps.v; exact arithmetic, spsolve is modelled by exact elimination; the steps return the unique solutions of the schemes"
  },
  {
   "property": "C33",
   "status": "proved",
   "theorems": [
    "C33_boundary_values",
    "C33_start_values",
    "C33_forward_euler",
    "C33_forward_euler_accumulates",
    "C33_forward_euler_refuted"
   ],
   "note": "PropApps.v; proved for BE and CN; refuted for FE, where k steps multiply the boundary values by k+1"
  },
  {
   "property": "C34",
   "status": "proved",
   "theorems": [
    "C34_step",
    "C34_mass",
    "C34_bounds",
    "C34_matrix_exists",
    "C34_negative_velocity_refuted"
   ],
   "note": "PropApps.v; c >= 0; for c < 0 the matrix can be singular"
  },
  {
   "property": "C35",
   "status": "proved",
   "theorems": [
    "C35_finished_flags_in_rank_order",
    "C35_stop_in_rank_order"
   ],
   "note": "PropLocal.v; every execution, no hypotheses on grids or operations"
  },
  {
   "property": "C36",
   "status": "proved",
   "theorems": [
    "C36_local_criteria_terminate",
    "C36_maximum_norm_terminates",
    "C36_one_point_terminates",
    "C36_local_criteria_terminate_refuted",
    "C36_norm_needed_refuted"
   ],
   "note": "PropLocalRun.v, PropRefuted.v; every execution ends with all messages received if every level relaxes, the norm keeps values below the tolerance below it, and for conv_crit 3 no process boundary separates an F- from a following C-point; without any one of the three conditions refuted"
  },
  {
   "property": "C37",
   "status": "proved",
   "theorems": [
    "C37_newton_bounded_refuted",
    "C37_maxiter_unused",
    "C37_never_returns",
    "C37_no_iteration",
    "C37_residual",
    "C37_implicit_schemes"
   ],
   "note": "PropAllenCahn.v; refuted; the value of newton_maxiter is unused, a non-positive tolerance never ends; a returned state meets the tolerance"
  },
  {
   "property": "C38",
   "status": "proved",
   "theorems": [
    "C38_bdf2_exact",
    "C38_bdf2_start",
    "C38_bdf2_run_exact",
    "C38_bdf1_exact",
    "C38_bdf1_quadratic_refuted"
   ],
   "note": "PropBdf.v; at the level of the steps and of whole runs"
  },
  {
   "property": "C39",
   "status": "proved",
   "theorems": [
    "C39_convergence_values"
   ],
   "note": "PropParallel.v"
  },
  {
   "property": "C40",
   "status": "proved",
   "theorems": [
    "C40_causality",
    "C40_iteration_prefix"
   ],
   "note": "PropAlgebra.v; 2-safety over pairs of problems, process counts and schedules"
  },
  {
   "property": "C41",
   "status": "proved",
   "theorems": [
    "C41_c_relax",
    "C41_fas_residual",
    "C41_error_correction",
    "C41_forward_solve"
   ],
   "note": "PropPhases.v"
  },
  {
   "property": "C42",
   "status": "proved",
   "theorems": [
    "C42_implicit_stable",
    "C42_forward_euler_iff"
   ],
   "note": "PropApps.v"
  },
  {
   "property": "C43",
   "status": "proved",
   "theorems": [
    "C43_equilibrium",
    "C43_runge_kutta",
    "C43_order_four"
   ],
   "note": "PropAllenCahn.v"
  },
  {
   "property": "C44",
   "status": "proved",
   "theorems": [
    "C44_laplacian",
    "C44_small_grids_rejected",
    "C44_imex_step",
    "C44_imex_balance"
   ],
   "note": "PropAllenCahn.v"
  },
  {
   "property": "C45",
   "status": "proved",
   "theorems": [
    "C45_local_criteria_values",
    "C45_exact_when_converged",
    "C45_error_bound"
   ],
   "note": "PropLocalValues.v; under the conditions of C36; vectors need unpack to restore what pack sent, whatever the receiving vector was"
  },
  {
   "property": "C46",
   "status": "proved",
   "theorems": [
    "C46_levels_kept",
    "C46_levels_kept_refuted"
   ],
   "note": "PropLevels.v; proved for the global criteria, refuted for the local ones by a run"
  },
  {
   "property": "C47",
   "status": "proved",
   "theorems": [
    "C47_objects_like_values",
    "C47_objects_reference",
    "C47_in_place_step_refuted",
    "C47_in_place_coarse_step_refuted",
    "C47_at_in_place_step_refuted",
    "C47_in_place_restriction_refuted",
    "C47_in_place_interpolation_refuted"
   ],
   "note": "PropHeap.v; classes Mgrit and AtMgrit with a heap of vector objects, lock-step simulation; each condition on the user functions is shown necessary by a run"
  },
  {
   "property": "C48",
   "status": "proved",
   "theorems": [
    "C48_read_all",
    "C48_order_checked",
    "C48_write_read",
    "C48_restart",
    "C48_values",
    "C48_preresolution"
   ],
   "note": "PropGetdp.v; over any float type with float(str(x)) = x; text modelled character by character"
  },
  {
   "property": "C49",
   "status": "proved",
   "theorems": [
    "C49_dictionaries",
    "C49_index_maps",
    "C49_aligned_fails",
    "C49_interpolation_exact",
    "C49_air_gap_refuted"
   ],
   "note": "PropMesh.v; the Delaunay weights are a parameter; an unknown in the air gap gets an unrelated value (refuted by a mesh)"
  },
  {
   "property": "C50",
   "status": "proved",
   "theorems": [
    "C50_machine_nested_raises",
    "C50_machine_otherwise_mgrit",
    "C50_conv_jl_raises",
    "C50_conv_jl_one_level"
   ],
   "note": "PropMachine.v; the switch of the right-hand side during nested iteration is not modelled (no theorem depends on the step)"
  },
  {
   "property": "C51",
   "status": "proved",
   "theorems": [
    "C51_two_level_is_parareal"
   ],
   "note": "PropParareal.v; copying transfers, weight 1"
  },
  {
   "property": "C52",
   "status": "proved",
   "theorems": [
    "C52_superlinear",
    "C52_linear",
    "C52_dahlquist_halved"
   ],
   "note": "PropParareal.v; distances are reals, error bounds relative to sequential time stepping"
  },
  {
   "property": "C53",
   "status": "proved",
   "theorems": [
    "C53_residual_bounds_error"
   ],
   "note": "PropParareal.v; residual criterion, runs that stop before the last allowed iteration"
  },
  {
   "property": "C54",
   "status": "proved",
   "theorems": [
    "C54_accepted_iff",
    "C54_time_information",
    "C54_one_point_refuted",
    "C54_linspace_sorted",
    "C54_linspace_strict",
    "C54_power_of_two_hierarchy",
    "C54_exact_grid",
    "C54_any_factor_refuted"
   ],
   "note": "PropLinspace.v; doubles with unbounded exponents; refuted for one point and for coarsening factors that are no powers of two"
  },
  {
   "property": "C55",
   "status": "proved",
   "theorems": [
    "C55_schedule",
    "C55_v_cycle_picture",
    "C55_f_cycle_picture",
    "C55_f_cycle_picture_refuted",
    "C55_nodes_side_by_side",
    "C55_plot_cycle_refuted",
    "C55_boxes_show_the_owner",
    "C55_bottom_box_refuted",
    "C55_ticks",
    "C55_one_level_refuted",
    "C55_convergence_curve",
    "C55_convergence_curve_refuted"
   ],
   "note": "PropPlots.v; what is drawn, as data; refuted for F-cycles, the coarsest row, one level, and plot_cycle as called after the constructor"
  },
  {
   "property": "C56",
   "status": "proved",
   "theorems": [
    "C56_operator",
    "C56_operator_refuted",
    "C56_step_is_backward_euler",
    "C56_boundary_values",
    "C56_step_contracts",
    "C56_step_defined",
    "C56_exact_solution",
    "C56_cached_operator",
    "C56_cached_operator_exact",
    "C56_step_depends_on_history_refuted"
   ],
   "note": "PropPetsc.v; exact arithmetic, PETSc solves exactly; refuted for grids that are not square and for time steps closer than np.isclose tells apart"
  },
  {
   "property": "C57",
   "status": "proved",
   "theorems": [
    "C57_operator",
    "C57_two_points_refuted",
    "C57_schemes",
    "C57_imex_defined",
    "C57_imex_bounds",
    "C57_mass_balance",
    "C57_trivial_state",
    "C57_initial_value",
    "C57_default_initial_value_refuted",
    "C57_jacobian",
    "C57_jacobian_refuted"
   ],
   "note": "PropPetsc.v; exact arithmetic; the Jacobian is refuted for grids that are not square, the default initial value is the trivial state"
  },
  {
   "property": "C58",
   "status": "proved",
   "theorems": [
    "C58_numpy_vectors_are_values",
    "C58_copying_vectors_are_values",
    "C58_numpy_write_refuted",
    "C58_shared_unpack_refuted"
   ],
   "note": "PropStorage.v; programs over the vector interface with references to arrays; both side conditions are shown to be needed"
  },
  {
   "property": "C59",
   "status": "proved",
   "theorems": [
    "C59_jacobi_integral",
    "C59_steps_keep_jacobi",
    "C59_reversible",
    "C59_triangular_points",
    "C59_initial_value",
    "C59_documented_equations_refuted"
   ],
   "note": "PropArenstorf.v; real numbers; scipy's solve_ivp is a parameter"
  },
  {
   "property": "C60",
   "status": "proved",
   "theorems": [
    "C60_nodes",
    "C60_elements",
    "C60_version",
    "C60_compute_data",
    "C60_unknown_node_raises",
    "C60_transfer",
    "C60_all_nodes_read_refuted",
    "C60_solid_refuted"
   ],
   "note": "PropMsh.v; files as characters, coordinates of any type with a parser; refuted: nodes with first coordinate 0, 1 or 2 are lost"
  },
  {
   "property": "C61",
   "status": "proved",
   "theorems": [
    "C61_inside_exact",
    "C61_fill_never_used",
    "C61_weight_sum",
    "C61_interpolated_bound",
    "C61_transfer_exact",
    "C61_constants_kept_refuted",
    "C61_outside_refuted"
   ],
   "note": "PropWeights.v; real numbers; scipy's triangulation is a parameter with its specification"
  },
  {
   "property": "C62",
   "status": "proved",
   "theorems": [
    "C62_command",
    "C62_step",
    "C62_result_checked",
    "C62_uninterrupted",
    "C62_init",
    "C62_stop_time_refuted",
    "C62_space_refuted"
   ],
   "note": "PropGetdpRun.v; GetDP is a parameter with its specification; the shell is modelled for commands of plain characters and double quotes; refuted: non-uniform grids, paths with spaces"
  },
  {
   "property": "C63",
   "status": "proved",
   "theorems": [
    "C63_solver_hypotheses",
    "C63_backward_euler",
    "C63_level_equations",
    "C63_galerkin",
    "C63_restrict_interpolate",
    "C63_lossless_refuted"
   ],
   "note": "PropSpatial.v; exact arithmetic; refuted: restricting an interpolated vector does not give it back"
  },
  {
   "property": "C64",
   "status": "proved",
   "theorems": [
    "C64_every_execution",
    "C64_process_count_independence",
    "C64_small_change",
    "C64_small_change_refuted",
    "C64_constructor_value"
   ],
   "note": "PropCustom.v; exact arithmetic; refuted: components that become zero may have changed arbitrarily"
  },
  {
   "property": "C65",
   "status": "proved",
   "theorems": [
    "C65_dahlquist_accuracy",
    "C65_midpoint_refuted"
   ],
   "note": "PropAccuracy.v; exact arithmetic; refuted: the mid-point rule for lambda = -2 stays away from the solution for every step size"
  },
  {
   "property": "C66",
   "status": "proved",
   "theorems": [
    "C66_two_parts",
    "C66_exceptions_are_safe",
    "C66_one_raises_nobody_returns",
    "C66_late_exception_refuted"
   ],
   "note": "PropFaults.v; exceptions may occur between any two communications, depending on all messages received; refuted: nobody returns when the output function raises after the barrier"
  },
  {
   "property": "C67",
   "status": "proved",
   "theorems": [
    "C67_heat_error",
    "C67_examples_accuracy"
   ],
   "note": "PropHeatError.v; exact arithmetic"
  },
  {
   "property": "C68",
   "status": "proved",
   "theorems": [
    "C68_find_nearest",
    "C68_every_execution",
    "C68_one_process",
    "C68_mgrit_workers"
   ],
   "note": "PropWorkflow.v; the solver is any program that ends on the workers alone; the mesh file is part of the broadcast message; the loop of a worker is cut after more passes than the optimizer has evaluations"
  },
  {
   "property": "C69",
   "status": "proved",
   "theorems": [
    "C69_plotted_solutions",
    "C69_old_files_refuted"
   ],
   "note": "PropOutputFiles.v; np.save/np.load of object arrays are assumed to give the data back; drawing is not modelled"
  },
  {
   "property": "C70",
   "status": "proved",
   "theorems": [
    "C70_advection_error"
   ],
   "note": "PropAdvectionError.v; exact real arithmetic; the function g is given by the user of the theorem (exp(-x^2) itself is not periodic), the example constructs one"
  },
  {
   "property": "C71",
   "status": "proved",
   "theorems": [
    "C71_heat2d_error",
    "C71_example_exact"
   ],
   "note": "PropHeat2DError.v; exact real arithmetic, spsolve exact; the .npy files of the script are not part of the statement (they are C69)"
  },
  {
   "property": "C72",
   "status": "proved",
   "theorems": [
    "C72_hidden_state",
    "C72_vector_laws",
    "C72_diffusion_runs"
   ],
   "note": "Firedrake.v, PropFiredrake.v; Firedrake evaluates forms by quadrature and solves exactly; the mesh properties (unisolvence, constants, trace inequality with constant mu) are hypotheses, proved for a two-triangle periodic square"
  },
  {
   "property": "C73",
   "status": "proved",
   "theorems": [
    "C73_conserved_quantities",
    "C73_advection_mass",
    "C73_diffusion_integral",
    "C73_at_mgrit_refuted"
   ],
   "note": "PropConserved.v; exact arithmetic; the refuted theorem shows that the restriction to the class Mgrit is needed"
  },
  {
   "property": "C74",
   "status": "proved",
   "theorems": [
    "C74_one_writer",
    "C74_coarsening_factors",
    "C74_large_factors_refuted",
    "C74_run_information",
    "C74_single_point",
    "C74_logged_convergence"
   ],
   "note": "Log.v, PropLog.v; values of the messages, not their text; exact arithmetic; C74_logged_convergence for global criteria (good_setup)"
  }
 ]
}