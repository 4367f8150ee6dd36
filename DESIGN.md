# Formal model of pymgrit in Rocq — design

Source: `/repo` (pymgrit), read as text. Everything lives in `rocq/theories` (logical name `Verif`).

## 1. Overall approach

* **Shallow functional model of the Python code, function by function.** Vectors, `step`, `restriction`,
  `interpolation`, `norm`, `pack`, `unpack`, the time norm and float comparison are *parameters* (a record
  `App`): every theorem quantifies over them. Python exceptions are values (`Raise e`). Python list indexing
  (negative indices included) is explicit (`py_nth`, `py_upd`).
* **Rank programs.** Each MPI process is a term of a free monad `prog` (`Ret`, `Send`, `Recv`, `WaitAll`, `Raise`).
  `f_relax`, `c_relax`, `fas_residual`, ... are functions from a process state to such programs that follow the Python
  statement by statement, including tags, `sender_finished`, ghost points and so on.
* **Network semantics.** A configuration is one program per rank and a queue per ordered pair of ranks. Sends append
  (`isend` pickles immediately), receives take the first message with the requested source and tag, `WaitAll` is only
  enabled once all messages sent by the rank have been received (the most pessimistic MPI buffering). Collectives
  (`gather`, `bcast`, `barrier`) are expanded to messages with reserved tags. Any enabled rank may step.
* **Kahn determinism.** The step relation has the diamond property, so one terminating execution determines all.
* **Parallel = global.** A small reference algorithm (`GState -> GState`, plain functions of the global time index, no
  ranks) is the specification. For every process count the rank programs are shown to simulate it. P = 1 is an
  instance, which gives process-count independence; the reference algorithm carries the numerical theorems.
* **Times** are only compared by the code modelled here, so they are integers `Z`: any finite set of doubles can be
  scaled to integers without changing `=`, `<`.
* Exact vector arithmetic (abelian group laws) is only assumed where a theorem says so (fixed point, finite exactness,
  zero residual). C01-C07 and similar hold for arbitrary (also floating-point) operations.

## 2. Per property plan

| id | what is modelled / how proved |
|----|-------------------------------|
| C01 | rank programs + network; simulation by the global algorithm, Kahn determinism |
| C02 | same; existence of one terminating run + diamond gives termination of all |
| C03 | diamond lemma on the network semantics for arbitrary programs |
| C04, C05 | `setup` (mgrit.py 742-827) for arbitrary P; interval arithmetic over sorted grids |
| C06 | `split_into` over nat, and over correctly rounded binary64 division (rationals, own rounding function) |
| C07 | closed form of F-relaxation, any P |
| C08, C09, C10, C40 | global algorithm, induction over levels / points, abstract vector laws |
| C11, C12, C16 | global algorithm + simulation |
| C13, C14, C15 | solve loop; C14 refuted by witness, conditional version proved |
| C17, C18 | constructor checks as a decision function; C18 refuted by a witness run |
| C19, C20 | `simple_setup_problem` on lists of times; C20 refuted by witnesses in both directions |
| C21, C22 | MPI `Split` semantics (colour, key); C22 refuted |
| C23 | iteration order of `set(all_pts) - set(cpts)` is a parameter `o_set_order`; CPython's hash set as a table of slots (PySet.v), full period of the probe sequence, tables large enough to hold a block of consecutive integers without collision, order up to rotation; refuted by a witness run |
| C24 | witness run of the network model |
| C25, C26 | AtMgrit.forward_solve serial; parallel: missing attribute modelled as exception |
| C27 | corollary of the simulation: every receive takes the head of its queue with matching tag |
| C28, C29, C30 | vector classes over lists of reals |
| C31, C38, C42 | field identities and inequalities over R |
| C32, C33, C34, C44 | matrices from `diags`/`kron` entry by entry for all sizes over R; `spsolve` = Gaussian elimination, regularity from strict diagonal dominance |
| C35 | predicate on all paths of a rank program + provenance of messages in logged executions (FlagProofs.v) |
| C36 | local criterion in the same rank programs (flags in the messages): explicit sequential schedule rank after rank (Pipeline.v), per-process bookkeeping of the remaining sends and receives (LocalOps.v, LocalMatch.v, LocalRun.v), Kahn determinism; witness runs for the three necessary conditions |
| C45 | values carried along the schedule of C36: invariant over the iterations for the values, their copies at the neighbours and the residuals (LocalValues.v) |
| C46 | invariant of the simulation; refuted for the local criteria by a run with vectors that carry their level |
| C47 | the solver over a heap of vector objects (`Heap.v`), simulated step by step by the solver over values (`NetSim.v`, `HeapProofs.v`); the conditions refuted one by one by runs |
| C48 | texts as lists of characters; lemmas on `split`, `readlines`; loop invariant of the reader (`Getdp.v`, `PropGetdp.v`) |
| C49 | dictionaries as association lists; the loops filling the index arrays as one loop with two tests; refuted by two concrete meshes (`Mesh.v`, `PropMesh.v`) |
| C50 | the phase up to the missing method, then everybody raises: Kahn's argument for a stuck configuration; one level: simulation of the passes (`Machine.v`, `PropMachine.v`) |
| C51 | the parareal iteration written down on the C-points; one cycle of the reference algorithm maps values that hold parareal values to the next ones (`Parareal.v`, `PropParareal.v`) |
| C52 | induction over iterations and intervals for the error of `parareal` (binomial sums); Dahlquist: the factors of the fine and coarse propagators multiply out, |fine - coarse| <= 1/2 (1 - coarse) (`PropParareal.v`) |
| C53 | induction over the points as in C10, with distances instead of equality (`PropParareal.v`) |
| C54 | doubles as rationals with a computable rounding function; monotonicity, scaling by powers of two, exactness and relative error of the rounding, then estimates for the grid values (`Linspace.v`, `PropLinspace.v`) |
| C55 | list of phases of a cycle, equivalent (`peq`) to the program `iteration`; pictures as lists of nodes, boxes and ticks; induction over levels (`Plots.v`, `PropPlots.v`) |
| C56 | matrix rows as lists of entries filled with INSERT_VALUES; maximum principle for existence, uniqueness and contraction; induction over the calls for the cached time step (`Petsc.v`, `PropPetsc.v`) |
| C57 | rows with wrapped indices, sums over the periodic grid, maximum principle, derivative of a cubic polynomial for the Jacobian (`Petsc.v`, `PropPetsc.v`) |
| C58 | heap of arrays and objects that refer to them; invariant (no dangling reference, for the copying classes no sharing); induction over programs (`Storage.v`, `PropStorage.v`) |
| C59 | derivative of the Jacobi integral along a solution, mean value theorem; induction over the steps (`Arenstorf.v`, `PropArenstorf.v`) |
| C60 | files as lines with their words; inductive description of the sections; induction over blocks and lines (`Msh.v`, `PropMsh.v`) |
| C61 | 2x2 algebra of the triangle transforms; sums of clamped barycentric coordinates (`Msh.v`, `PropWeights.v`) |
| C62 | GetDP as a function on files with a specification; composition of shell words, C48 and slices; induction over the time grid, runs of the time loop concatenate (`GetdpRun.v`, `PropGetdpRun.v`) |
| C63 | composition of C29, C30, C32 with C09: one vector size per level; algebra of the transfer stencils (`Spatial.v`, `PropSpatial.v`) |
| C64 | as C01 with the phases of the overridden criterion (gather and broadcast instead of reductions); independence of the iterations from the criterion's data (`CustomProofs.v`, `PropCustom.v`) |
| C65 | composition of C09 and C53 with bounds of the stability functions against exp (mean value theorem) and an induction over the steps (`PropAccuracy.v`) |
| C66 | simulation of the network with exceptions by the network without, confluence, and an invariant of the barrier that one process never reaches (`Faults.v`, `PropFaults.v`) |
| C67 | composition of C09, C53 and C63 with a discrete maximum principle, an induction over the steps and bounds of sine and cosine (`PropHeatError.v`) |
| C68 | an execution on a sub-communicator is simulated inside the world (`WorkflowProofs.v`: `embed_phase`), broadcasts and allgather are phases, induction over the optimizer (`PropWorkflow.v`) |
| C69 | the recorded output calls of each process determine its files, whatever the interleaving; concatenated in any order they are a permutation of the increasing list of all points, which sorting restores (`PropOutputFiles.v`) |
| C70 | maximum principle of the implicit upwind scheme, Taylor's formula with a Lipschitz derivative from the mean value theorem, then C09 and C53 (`PropAdvectionError.v`) |
| C71 | maximum principle of the backward Euler matrix of the five-point stencil (`zmatrix_max`), induction over the time points, then C09 and C53; the stencil and the theta method are exact for the solution of the example (`PropHeat2DError.v`) |
| C72 | bilinear forms as assembled matrices, interior penalty form is not negative by Young's inequality and the trace inequality, test function 1 for the integral, energy estimate for the norm, then C09 and C53 (`PropFiredrake.v`) |
| C73 | induction over the levels of one iteration: the quantities of the right-hand sides and sources of a coarse level add up to those of the fine level, so after the correction every C-point is in balance; F-relaxation fills the rest; then induction over the iterations (`PropConserved.v`) |
| C74 | facts about C-points (`SetupProofs.v`) for the factors, maximum of a list for the overview, `run_facts` for the lines of the iterations (`PropLog.v`) |
| C37 | Newton loop with fuel, guard as written; refuted |
| C39 | part of the simulation: gather order = time order |
| C41 | per-phase versions of the simulation lemmas |
| C43 | RK4 step against a generic explicit Runge-Kutta step with a Butcher tableau |

Not expressible here: run times, logging output, plotting, real MPI/numpy/scipy/petsc/firedrake internals, rounding
errors of the numerical results, `clone_rand` randomness.

## 3. Trusted base

### 3.1 Kernel and axioms

* Coq 8.16.1's kernel, including the `vm_compute` reduction machine (used for witness runs).
* No axiom, parameter, admitted proof or disabled check of our own. Only the standard library is used.
* `Print Assumptions` for the theorems named in `MANIFEST.json` (this list is produced by `tools/assumptions.py --update`):

<!-- assumptions begin -->
* **no axioms (closed under the global context)**: `C01_process_count_independence`, `C01_parallel_equals_reference`, `C02_no_deadlock`, `C03_deterministic`, `C03_confluent`, `C04_unique_owner`, `C04_blocks_tile_in_rank_order`, `C04_finest_level_balanced`, `C04_local_times`, `C05_partners_agree`, `C05_partners_exist`, `C05_boundary_messages`, `C06_split_into`, `C06_blocks_tile`, `C06_float_split_into`, `C06_float_quotient`, `C06_float_sum_below_2_53_refuted`, `C07_f_relax`, `C08_fixed_point`, `C08_stays_solved`, `C09_finite_termination`, `C09_finite_termination_lossless`, `C09_exact_after_enough_iterations`, `C10_zero_residual_iff_solved`, `C11_one_level`, `C12_initial_value`, `C13_iteration_control`, `C14_reported_history`, `C14_complete_history`, `C14_one_value_per_iteration_refuted`, `C14_second_solve_refuted`, `C15_output_calls`, `C15_last_output_is_result`, `C16_nested_iteration`, `C17_accepted_iff`, `C17_rejected_raises`, `C18_initial_value_refuted`, `C19_grids`, `C19_total`, `C19_valid_and_accepted`, `C20_warning_condition`, `C20_warning_refuted`, `C21_product`, `C22_no_space_parallelism`, `C22_space_parallel_raises`, `C22_own_communicator_refuted`, `C23_order_ok`, `C23_uniform_order_ok`, `C23_simple_setup_order_ok`, `C23_simple_setup_process_count`, `C23_order_refuted`, `C23_process_count_independence_refuted`, `C24_process_count_independence_refuted`, `C25_full_distance_is_mgrit`, `C25_coarse_solve`, `C26_process_count_independence_refuted`, `C26_parallel_never_returns`, `C26_single_level_does_nothing`, `C27_messages_wanted_in_order`, `C27_tags_consecutive`, `C27_tags_alone_identify_messages_refuted`, `C28_machine_values_roundtrip`, `C35_finished_flags_in_rank_order`, `C35_stop_in_rank_order`, `C36_local_criteria_terminate`, `C36_maximum_norm_terminates`, `C36_one_point_terminates`, `C36_local_criteria_terminate_refuted`, `C36_norm_needed_refuted`, `C39_convergence_values`, `C40_causality`, `C40_iteration_prefix`, `C41_c_relax`, `C41_fas_residual`, `C41_error_correction`, `C41_forward_solve`, `C45_local_criteria_values`, `C45_exact_when_converged`, `C46_levels_kept`, `C46_levels_kept_refuted`, `C47_objects_like_values`, `C47_objects_reference`, `C47_in_place_step_refuted`, `C47_in_place_coarse_step_refuted`, `C47_at_in_place_step_refuted`, `C47_in_place_restriction_refuted`, `C47_in_place_interpolation_refuted`, `C48_read_all`, `C48_order_checked`, `C48_write_read`, `C48_restart`, `C48_values`, `C48_preresolution`, `C49_dictionaries`, `C49_index_maps`, `C49_aligned_fails`, `C50_machine_nested_raises`, `C50_machine_otherwise_mgrit`, `C50_conv_jl_raises`, `C50_conv_jl_one_level`, `C51_two_level_is_parareal`, `C54_accepted_iff`, `C54_time_information`, `C54_one_point_refuted`, `C54_linspace_sorted`, `C54_linspace_strict`, `C54_power_of_two_hierarchy`, `C54_exact_grid`, `C54_any_factor_refuted`, `C55_schedule`, `C55_v_cycle_picture`, `C55_f_cycle_picture`, `C55_f_cycle_picture_refuted`, `C55_nodes_side_by_side`, `C55_plot_cycle_refuted`, `C55_boxes_show_the_owner`, `C55_bottom_box_refuted`, `C55_ticks`, `C55_one_level_refuted`, `C55_convergence_curve`, `C55_convergence_curve_refuted`, `C58_numpy_vectors_are_values`, `C58_copying_vectors_are_values`, `C58_numpy_write_refuted`, `C58_shared_unpack_refuted`, `C60_nodes`, `C60_elements`, `C60_version`, `C60_compute_data`, `C60_unknown_node_raises`, `C60_all_nodes_read_refuted`, `C60_solid_refuted`, `C62_command`, `C62_step`, `C62_result_checked`, `C62_uninterrupted`, `C62_init`, `C62_stop_time_refuted`, `C62_space_refuted`, `C64_every_execution`, `C64_process_count_independence`, `C66_two_parts`, `C66_exceptions_are_safe`, `C66_one_raises_nobody_returns`, `C66_late_exception_refuted`, `C68_find_nearest`, `C69_plotted_solutions`, `C69_old_files_refuted`, `C74_one_writer`, `C74_coarsening_factors`, `C74_large_factors_refuted`, `C74_run_information`, `C74_single_point`
* **ClassicalDedekindReals.sig_forall_dec**: `C28_machine_values_roundtrip_refuted`, `C30_copy_identity`, `C30_machine_restrict_interpolate`, `C30_machine_interpolation_total_refuted`, `C33_start_values`, `C49_interpolation_exact`, `C60_transfer`
* **ClassicalDedekindReals.sig_forall_dec, ClassicalDedekindReals.sig_not_dec, Classical_Prop.classic, FunctionalExtensionality.functional_extensionality_dep**: `C59_jacobi_integral`, `C59_steps_keep_jacobi`, `C59_reversible`, `C59_triangular_points`, `C59_documented_equations_refuted`, `C65_dahlquist_accuracy`, `C65_midpoint_refuted`, `C67_examples_accuracy`, `C70_advection_error`
* **ClassicalDedekindReals.sig_forall_dec, ClassicalDedekindReals.sig_not_dec, FunctionalExtensionality.functional_extensionality_dep**: `C28_roundtrip`, `C28_pair_roundtrip_iff`, `C28_pair_roundtrip_refuted`, `C29_array_laws`, `C29_array2_laws`, `C29_pair_laws`, `C29_machine_laws`, `C29_machine_norm_refuted`, `C29_orbit_laws`, `C29_solver_hypotheses`, `C52_dahlquist_halved`, `C56_step_is_backward_euler`, `C56_boundary_values`, `C56_step_contracts`, `C56_step_defined`, `C56_exact_solution`, `C56_step_depends_on_history_refuted`, `C57_initial_value`, `C57_default_initial_value_refuted`, `C61_transfer_exact`, `C63_solver_hypotheses`, `C63_backward_euler`, `C63_level_equations`, `C63_lossless_refuted`, `C64_small_change`, `C64_small_change_refuted`, `C64_constructor_value`, `C67_heat_error`, `C71_heat2d_error`, `C71_example_exact`, `C72_vector_laws`, `C72_diffusion_runs`, `C73_advection_mass`, `C73_diffusion_integral`, `C74_logged_convergence`
* **ClassicalDedekindReals.sig_forall_dec, FunctionalExtensionality.functional_extensionality_dep**: `C29_dahlquist_laws`, `C30_heat_transfer_shapes`, `C30_heat_transfer_shapes_even_refuted`, `C30_heat_interpolation_values`, `C30_heat_restriction_values`, `C30_heat_transfer_adjoint`, `C31_dahlquist`, `C31_midpoint_iff`, `C31_midpoint_refuted`, `C32_heat1d_matrix`, `C32_heat1d_step`, `C32_heat1d_maximum`, `C32_heat2d_matrix`, `C32_heat2d_step`, `C32_heat2d_maximum`, `C33_boundary_values`, `C33_forward_euler`, `C33_forward_euler_accumulates`, `C33_forward_euler_refuted`, `C34_step`, `C34_mass`, `C34_bounds`, `C34_matrix_exists`, `C34_negative_velocity_refuted`, `C37_newton_bounded_refuted`, `C37_maxiter_unused`, `C37_never_returns`, `C37_no_iteration`, `C37_residual`, `C37_implicit_schemes`, `C38_bdf2_exact`, `C38_bdf2_start`, `C38_bdf2_run_exact`, `C38_bdf1_exact`, `C38_bdf1_quadratic_refuted`, `C42_implicit_stable`, `C42_forward_euler_iff`, `C43_equilibrium`, `C43_runge_kutta`, `C43_order_four`, `C44_laplacian`, `C44_small_grids_rejected`, `C44_imex_step`, `C44_imex_balance`, `C45_error_bound`, `C49_air_gap_refuted`, `C52_superlinear`, `C52_linear`, `C53_residual_bounds_error`, `C56_operator`, `C56_operator_refuted`, `C56_cached_operator`, `C56_cached_operator_exact`, `C57_operator`, `C57_two_points_refuted`, `C57_schemes`, `C57_imex_defined`, `C57_imex_bounds`, `C57_mass_balance`, `C57_trivial_state`, `C57_jacobian`, `C57_jacobian_refuted`, `C59_initial_value`, `C61_inside_exact`, `C61_fill_never_used`, `C61_weight_sum`, `C61_interpolated_bound`, `C61_constants_kept_refuted`, `C61_outside_refuted`, `C63_galerkin`, `C63_restrict_interpolate`, `C68_every_execution`, `C68_one_process`, `C68_mgrit_workers`, `C72_hidden_state`, `C73_conserved_quantities`, `C73_at_mgrit_refuted`
<!-- assumptions end -->

These are the axioms behind the standard library's `Reals`; `Classical_Prop.classic` enters through its power function and mean
value theorem (C59, C65, C67, C70 only).

### 3.2 What is modelled

| source (`/repo/src/pymgrit`) | lines | model |
|---|---|---|
| `core/mgrit.py` constructor: checks, options, attribute set-up | 33-246 | `Mgrit.check`, `Mgrit.init_state`, `Mgrit.construct`, `Mgrit.mgrit_main` |
| `iteration`, `f_relax`, `c_relax`, `compute_jump`, `compute_residual`, `convergence_criterion` | 261-457 | `Mgrit.v`, same names |
| `forward_solve`, `fas_residual`, `nested_iteration` | 459-566 | `Mgrit.v` |
| `solve`, `clean_up`, `receive`, `send`, `error_correction` | 590-726 | `Mgrit.v` |
| `split_points`, `setup_points_and_comm_info`, `split_into`, `create_u_v_g` | 728-858 | `Setup.v`, `Mgrit.v`; `split_into` in double precision: `SplitFloat.v` |
| the methods of `Mgrit` above with vector objects instead of values | 33-858 | `Heap.v` |
| CPython's `set` behind `mgrit.py` 773 | | `PySet.v` |
| `core/mgrit.py` 428-432 on a split world communicator | | `WorldCrit.v` |
| `core/at_mgrit.py` | 17-217 | `Mgrit.v` (`o_dist = Some k`); 218-249 (219-228 `create_coarsest_level` is never called; 230-249 is logging: `Log.v`) |
| `core/simple_setup_problem.py`, `core/split.py` | all | `SimpleSetup.v` |
| `core/application.py` (time attributes) | 44-68 | `SimpleSetup.Problem` |
| `core/grid_transfer_copy.py`, `induction_machine/grid_transfer_machine.py` | all | `Vectors.v` |
| vector classes: advection, allen_cahn, arenstorf_orbit, brusselator, dahlquist, heat_1d, heat_2d, heat_1d_2pts, machine | see comments | `Vectors.v` |
| `induction_machine/helper.py`: `get_preresolution`, `set_resolution`, `get_values_from`, `getdp_read_resolution`, `pre_file` | 26-161 | `Getdp.v` |
| `induction_machine/helper.py`: `get_arrays` (unknowns and index maps), `interpolation_factors` | 311-497 | `Mesh.v` |
| `induction_machine/helper.py`: `check_version`, `get_nodes`, `get_elements`, `compute_data`, `interp_weights`, `compute_mesh_transfer`, `cart2pol`; constructor of `GridTransferMachine` | 164-308, 500-518 | `Msh.v` |
| `induction_machine/induction_machine.py` (constructor, `step`, `run_getdp`), `helper.is_numeric`; `os.path.split/splitext/join`; shell words | all | `GetdpRun.v` |
| `arenstorf_orbit/arenstorf_orbit.py` (right-hand side, initial value, step) | 77-117 | `Arenstorf.v` |
| `core/application.py` (constructor and metaclass), `np.linspace` in double precision | 19-70 | `Linspace.v` |
| `core/mgrit_with_plots.py` (what `plot_convergence`, `plot_cycle` and `plot_parallel_distribution` draw) | all | `Plots.v` |
| `induction_machine/mgrit_machine.py`, `mgrit_machine_conv_jl.py` (the call of the missing `f_exchange` is an AttributeError; without the sine right-hand side) | all | `Machine.v` |
| `examples/example_spatial_coarsening.py` (`GridTransferHeat` and the set-up of the levels) | all | `Vectors.v`, `Spatial.v` |
| `examples/example_convergence_criterion.py` (`MgritCustomized`) | all but the application | `Custom.v` |
| `examples/optimize_geometry_im/optimization_workflow.py` (protocol of `objx` and `worker`, `solve`, `find_nearest`; not `convergence_criterion`, `nested_iteration`, `create_mesh`) | 36-53, 111-248 | `Workflow.v` |
| `examples/example_output_fcn.py` (`output_fcn` and reading the files back; not the drawing) | 17-60 | `OutputFiles.v` |
| `firedrake/diffusion_2d_firedrake.py`, `firedrake/vector_firedrake.py` | `Firedrake.v` | quadrature points with the values and gradients of the basis functions instead of a mesh; `solver.solve()` is one Newton step from `self.soln` with an exact linear solver; kappa a number |
| `core/mgrit.py` 206-219 (factors), 247-259, 568-588, 610-623; `core/at_mgrit.py` 229-249 | `Log.v` | values of the messages; no text, no run times; `np.isclose` on integers with exact tolerances |
| array references of the numpy vector classes, `petsc/vector_petsc.py`, `firedrake/vector_firedrake.py` | all | `Storage.v` |
| `petsc/heat_2D_petsc.py`, `petsc/gray_scott_2d_petsc.py` (matrix rows, residual, Jacobian, steps as the equations they solve, cached operator) | see comments | `Petsc.v` |
| steps and matrices: advection, allen_cahn, brusselator, dahlquist, heat_1d, heat_2d, heat_1d_2pts_bdf1/bdf2 | see comments | `Apps.v` |

Every definition carries a comment with file and lines.

### 3.3 Modelling decisions a reader has to trust

* **MPI.** `isend` pickles at once, messages of one (source, destination, tag) do not overtake, `recv` blocks, `Waitall`
  waits until every message sent so far was received. `gather`/`bcast`/`barrier` are expanded to point-to-point messages
  with private tags. Ranks of `comm_time` only; space parallelism appears in C21 and C22 only.
* **Message labels.** `Tag` carries the level and the operation id beside the tag number. They are ghost data: matching
  (`take`) only looks at the number; C27 uses the labels to say which message was received.
* **Values.** In `Mgrit.v` vectors are immutable values. `Heap.v` models class `Mgrit` again with a heap of objects that list
  entries refer to; C47 proves that nothing changes under conditions on the user's functions (a step returns a new object, a
  transfer that returns its argument has not changed it). Both classes, Mgrit and AtMgrit, are modelled with objects. `clone()` is modelled as an operation and the laws of `App` say when it is the identity.
* **Floats.** The solver theorems quantify over the scalar type and its operations, no rounding law is used. The
  example applications are modelled in exact real arithmetic. `split_into` is also treated in double precision,
  and so is `np.linspace` for the time grids: rationals with 53-bit rounding, no overflow or subnormal numbers, the formula of
  numpy >= 1.20 (`i * step + start`, last entry replaced; the model was compared with Python floats on 40 random grids).
* **Times** are integers (only compared; steps receive them). C54 connects them with doubles: multiples of 1/D.
* **Sets.** `list(set(a) - set(b))` is an arbitrary function `o_set_order`; the theorems assume what they need of it
  (`f_order_ok`). C23 proves the assumption for `PySet.cpython_order`, a model of `Objects/setobject.c` of CPython 3.7-3.12
  (compared with a real interpreter on 20000 random sets while it was written).
* **AT-MGRIT with k <= 0** passes the constructor check of the model as in the code only for one process; runs with
  several processes are only covered by C26.
* **Text files.** Files are lists of 7-bit characters, `open` translates line ends, `str` and `float` are parameters with
  `float(str(x)) = x` and no blanks or dollar signs in `str(x)`. `int` of a word is Coq's decimal conversion (no plus sign or
  underscores). `p in array` for a row `p` of a two-dimensional numpy array compares single coordinates, as numpy does.
* **numpy/scipy.** `linspace`, `diags`, `eye`, `kron`, `spsolve` are the definitions of `LinAlg.v` and `Apps.v`:
  `spsolve` is Gaussian elimination (exact), `diags` follows scipy's placement rule for a shape argument.

### 3.4 What is not modelled

* The text of log messages (`Log.v` has their values), run-time measurement and the `plot` methods of the applications; figure layout, colours.
* The call of `ouput_run_information` at the end of a run (`Log.v` has the function; it raises ValueError for a single time point,
  after the solve; the theorems about runs assume two points, `gs_two`).
* `induction_machine/helper.py`: the Delaunay triangulation itself, plot data, negative element counts in a `.msh` file; GetDP itself and
  shell commands with other special characters (`GetdpRun.v` takes both as parameters).
* PETSc itself (solvers, distribution of the grid; `Petsc.v` has the whole grid and exact solutions of the equations),
  Firedrake itself (meshes, quadrature, solvers; `Firedrake.v` has forms as sums over quadrature points and exact solvers) and
  `burgers_firedrake.py` (nonlinear: its Newton iteration starts from the last solution and stops at a tolerance, so a step depends
  on the calls before it up to that tolerance), scipy's `solve_ivp` (a parameter of `Arenstorf.step`).
* `clone_rand` values (random numbers are arbitrary vectors: `o_rand`).
* Memory limits, signal handling. Exceptions thrown by user code are modelled as programs that stop between two
  communications (`may_raise` in `Faults.v`); what the MPI library does when one process dies is not (`mpiexec` usually
  kills all): the others block in the model.

### 3.5 Theory files

Definitions: `Net`, `PyList`, `PySet`, `Setup`, `Mgrit`, `Heap`, `SplitFloat`, `Linspace`, `Plots`, `SimpleSetup`, `WorldCrit`, `Workflow`, `OutputFiles`, `Firedrake`, `Log`, `LinAlg`, `Vectors`, `Getdp`, `Mesh`, `Machine`, `Apps`,
`Petsc`, `Storage`, `Arenstorf`, `Msh`, `GetdpRun`, `Spatial`, `Custom`, `ExampleApp`. Specification: `Spec`, `Reference`, `Parareal` (first part), and the definitions at the head of each `Prop*` file. Proofs:
`NetProofs`, `NetFifo`, `NetExec`, `WorkflowProofs`, `NetPhase`, `NetSim`, `ListFacts`, `SplitProofs`, `OrderProofs`, `PySetProofs`, `SetupProofs`, `SetupProps`,
`SimpleSetupProofs`, `CheckProofs`, `RefProofs`, `Collect`, `Sim`, `Main`, `ParallelProofs`, `Algebra`, `Causality`,
`TagProofs`, `FlagProofs`, `Pipeline`, `LocalOps`, `LocalMatch`, `LocalRun`, `LocalValues`, `HeapProofs`, `CustomProofs`, `Faults`, `AppProofs`. Theorems of the manifest: `Prop*`.
