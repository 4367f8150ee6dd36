{"id": "C01", "title": "Result independent of the number of processes", "statement": "Running Mgrit(...).solve() with a global convergence criterion on any number of time processes gives, point for point, exactly the same solution vectors u[0], the same 'conv' history and the same number of iterations as the run on one process, provided the time grids are strictly increasing, nested, share the first point and no two coarse points are neighbours on the next finer grid.", "quantifier": "every problem hierarchy and vector type, every option set with conv_crit 0/1, every process count 1..nt, every interleaving of the processes", "why_tests_cant": "the MPI tests run a handful of sizes on a handful of grids under whatever interleaving happens to occur; the claim is about all grids, sizes and interleavings", "anchors": ["src/pymgrit/core/mgrit.py: Mgrit.solve, Mgrit.iteration, Mgrit.f_relax, Mgrit.c_relax, Mgrit.fas_residual, Mgrit.forward_solve, Mgrit.error_correction, Mgrit.convergence_criterion, Mgrit.setup_points_and_comm_info"]}
{"id": "C02", "title": "No deadlock, no lost message (global criterion)", "statement": "Under the hypotheses of C01 every execution of Mgrit(...).solve() on any number of processes terminates with every process returning, even if isend only completes when the matching receive has happened; no reachable state is stuck and no message is left undelivered.", "quantifier": "every hierarchy, option set with conv_crit 0/1, process count and every schedule, with no bound on steps", "why_tests_cant": "a deadlock depends on the schedule and on the MPI buffering; a test sees one of them", "anchors": ["src/pymgrit/core/mgrit.py: Mgrit.send, Mgrit.receive, Mgrit.clean_up, Mgrit.solve"]}
{"id": "C03", "title": "Message-passing runs are deterministic", "statement": "For any set of rank programs that use source- and tag-addressed blocking receives, non-blocking sends and Waitall (the only primitives pymgrit uses), any two executions from the same start that reach a state in which nobody can move end in the same state, and all of them take the same number of steps.", "quantifier": "all programs of this kind, all pairs of schedules", "why_tests_cant": "interleavings cannot be enumerated", "anchors": ["src/pymgrit/core/mgrit.py: Mgrit.send, Mgrit.receive, Mgrit.convergence_criterion, Mgrit.clean_up"]}
{"id": "C04", "title": "Every time point has exactly one owner", "statement": "On every level of a valid hierarchy each global time index is stored as a non-ghost point by exactly one process, each process stores a contiguous (possibly empty) index interval, the intervals appear in rank order, and on the finest level their sizes differ by at most one and none is empty.", "quantifier": "all strictly increasing nested grids, all levels, all process counts 1..nt", "why_tests_cant": "tests check a few literal distributions", "anchors": ["src/pymgrit/core/mgrit.py: Mgrit.setup_points_and_comm_info, Mgrit.split_points, Mgrit.split_into"]}
{"id": "C05", "title": "Communication tables of neighbouring processes agree", "statement": "On every level, process p is told to send to q exactly when q is told to receive from p, and then q's first point is the successor of p's last point; a process announces a send before/inside F-relaxation or around C-relaxation exactly when the partner announces the matching receive.", "quantifier": "all valid hierarchies, levels, process counts, process pairs", "why_tests_cant": "tests compare the tables of two literal set-ups", "anchors": ["src/pymgrit/core/mgrit.py: Mgrit.setup_points_and_comm_info (send_to, get_from, comm_front, comm_back, first_is_f_point, first_is_c_point, last_is_f_point, last_is_c_point)"]}
{"id": "C06", "title": "split_into is a balanced partition", "statement": "split_into(n, p) returns p block sizes that sum to n, are non-increasing and pairwise differ by at most one; the blocks given by split_points tile [0, n) in rank order. This holds also when n / p is evaluated in double precision, for every n below 2^53 with p not larger than n.", "quantifier": "all n, p with 1 <= p <= n (and all n < 2^53 for the floating-point evaluation)", "why_tests_cant": "unbounded range; floating-point division could round up to the next integer", "anchors": ["src/pymgrit/core/mgrit.py: Mgrit.split_into, Mgrit.split_points"]}
{"id": "C07", "title": "F-relaxation is exact propagation from C-points", "statement": "After f_relax on a level every F-point holds the value obtained by repeatedly applying the (FAS-)step from the nearest preceding C-point, and C-points are unchanged, however the points are distributed over processes.", "quantifier": "all hierarchies, levels, states, process counts", "why_tests_cant": "requires induction over F-intervals that may span many processes", "anchors": ["src/pymgrit/core/mgrit.py: Mgrit.f_relax"]}
{"id": "C08", "title": "The exact solution is a fixed point", "statement": "If the finest level holds the sequential time-stepping solution, one MGRIT iteration (V or F cycle, any number of levels, any cf_iter, any weight_c, any coarse propagators, non-linear steps allowed) leaves it unchanged.", "quantifier": "all hierarchies, cycle types, numbers of CF-relaxations, weights and (possibly non-linear) step functions over exact vector arithmetic", "why_tests_cant": "needs the FAS identities for every step function and depth of recursion", "anchors": ["src/pymgrit/core/mgrit.py: Mgrit.iteration, Mgrit.fas_residual, Mgrit.error_correction, Mgrit.c_relax, Mgrit.f_relax, Mgrit.forward_solve"]}
{"id": "C09", "title": "Finite termination: exact after enough iterations", "statement": "With weight_c = 1, after k iterations all points up to the (k*cf_iter[0])-th coarse interval (for two levels with copy-type transfers the (k*(cf_iter[0]+1))-th) hold the sequential time-stepping values; hence the sequential solution is reproduced after finitely many iterations whatever the initial guess and the coarse propagators.", "quantifier": "all hierarchies, initial guesses, coarse step functions, iteration counts", "why_tests_cant": "unbounded number of points, levels and iterations", "anchors": ["src/pymgrit/core/mgrit.py: Mgrit.iteration, Mgrit.solve"]}
{"id": "C10", "title": "Zero residual means solved", "statement": "If after an iteration all the residual values of the global residual criterion are zero vectors then the stored finest-level solution is exactly the sequential time-stepping solution; conversely that solution has zero residual.", "quantifier": "all hierarchies, all reachable states after an iteration", "why_tests_cant": "quantifies over all states; the criterion only inspects C-points, so F-point exactness has to be an invariant", "anchors": ["src/pymgrit/core/mgrit.py: Mgrit.compute_residual, Mgrit.convergence_criterion"]}
{"id": "C11", "title": "One level is sequential time stepping", "statement": "With a single level and max_iter >= 1, solve() performs time stepping: every process ends with the sequential solution, on any number of processes.", "quantifier": "all problems, process counts, schedules", "why_tests_cant": "unbounded sizes and schedules", "anchors": ["src/pymgrit/core/mgrit.py: Mgrit.forward_solve, Mgrit.nested_iteration, Mgrit.solve"]}
{"id": "C12", "title": "The initial value is never modified", "statement": "Under the hypotheses of C01 the finest-level value at the first time point equals the problem's vector_t_start after construction and after every iteration.", "quantifier": "all hierarchies, options, iteration counts", "why_tests_cant": "invariant over all iterations", "anchors": ["src/pymgrit/core/mgrit.py: Mgrit.create_u_v_g, Mgrit.c_relax, Mgrit.error_correction, Mgrit.f_relax"]}
{"id": "C13", "title": "Iteration control", "statement": "solve() performs at most max_iter iterations, stops after the first iteration whose convergence value is below tol, and otherwise performs exactly max_iter; all processes stop after the same iteration.", "quantifier": "all max_iter, tol, convergence histories, process counts", "why_tests_cant": "for all histories", "anchors": ["src/pymgrit/core/mgrit.py: Mgrit.solve"]}
{"id": "C14", "title": "Reported convergence history", "statement": "The 'conv' array returned by solve() contains the convergence value of every performed iteration in order. (False as stated: exact zeros are removed, and a second solve() call keeps stale entries; proved for first calls without exact zeros.)", "quantifier": "all convergence histories", "why_tests_cant": "the failing histories are rare in tests", "anchors": ["src/pymgrit/core/mgrit.py: Mgrit.solve (line 645), Mgrit.convergence_criterion"]}
{"id": "C15", "title": "output_fcn call protocol", "statement": "output_fcn is called never for output_lvl 0, exactly once after the last iteration for output_lvl 1, and once after set-up plus once after each iteration for output_lvl 2, in that order.", "quantifier": "all runs", "why_tests_cant": "for all iteration counts", "anchors": ["src/pymgrit/core/mgrit.py: Mgrit.__init__ (242), Mgrit.solve (625, 641)"]}
{"id": "C16", "title": "Nested iteration initial guess", "statement": "With nested_iteration=True on two levels, after construction every coarse point of level 0 other than the first holds the interpolation of the coarse-grid time-stepping solution, and the first holds the initial value.", "quantifier": "all two-level hierarchies, process counts", "why_tests_cant": "unbounded grids", "anchors": ["src/pymgrit/core/mgrit.py: Mgrit.nested_iteration"]}
{"id": "C17", "title": "Constructor validation is sound", "statement": "Whenever the constructor accepts a hierarchy, every time of a coarser grid occurs in the next finer grid, no coarse grid has repeated times, grid sizes do not grow, there is one transfer per level pair, the option values are in their documented ranges and there are not more processes than points. (That the coarse grids contain the initial time is not checked: refuted.)", "quantifier": "all argument combinations", "why_tests_cant": "combinatorial input space", "anchors": ["src/pymgrit/core/mgrit.py: Mgrit.__init__ (74-128)"]}
{"id": "C18", "title": "A coarse grid must keep the initial time", "statement": "Every hierarchy accepted by the constructor leads to a solver that keeps the initial condition. (Refuted: a nested coarse grid without the first fine point is accepted, the initial value is overwritten in the first F-relaxation and the run then hangs.)", "quantifier": "all accepted hierarchies", "why_tests_cant": "needs an unusual but accepted input", "anchors": ["src/pymgrit/core/mgrit.py: Mgrit.__init__, Mgrit.f_relax (321)"]}
{"id": "C19", "title": "simple_setup_problem builds a valid hierarchy", "statement": "simple_setup_problem(problem, level, c) returns level problems, problem i living on every c^i-th time of the original grid; consecutive grids are nested, all start with the same time, and if every grid has two points the Mgrit constructor accepts the list.", "quantifier": "all grids, levels, coarsening factors >= 1", "why_tests_cant": "unbounded", "anchors": ["src/pymgrit/core/simple_setup_problem.py: simple_setup_problem"]}
{"id": "C20", "title": "simple_setup_problem warns exactly when the coarsest grid degenerates", "statement": "The printed warning about a single point on the coarsest grid appears exactly when that grid has one point. (Refuted in both directions: the test uses coarsening*level.)", "quantifier": "all nt, level, coarsening", "why_tests_cant": "wrong only for some combinations", "anchors": ["src/pymgrit/core/simple_setup_problem.py: simple_setup_problem (31-33)"]}
{"id": "C21", "title": "split_communicator is a product of space and time", "statement": "If the space size s divides the world size, every process gets a space communicator of size s and a time communicator of size N/s, two processes share both only if they are the same process, and (time rank, space rank) identifies the process.", "quantifier": "all communicator sizes and divisors", "why_tests_cant": "unbounded", "anchors": ["src/pymgrit/core/split.py: split_communicator"]}
{"id": "C22", "title": "Convergence check under space-time parallelism", "statement": "With time communicators of a split world, every process of every time communicator obtains the convergence value of its own time communicator. (Refuted: gather/bcast run on COMM_WORLD, a process with time rank 0 and world rank > 0 receives None.)", "quantifier": "all splittings of the world", "why_tests_cant": "needs multi-communicator runs", "anchors": ["src/pymgrit/core/mgrit.py: Mgrit.convergence_criterion (428-432)"]}
{"id": "C23", "title": "F-relaxation order does not depend on hash-set iteration order", "statement": "For every valid hierarchy, process and level the F-points of a process are processed in an order in which each F-point comes after its predecessor, whatever order CPython's hash set gives to list(set(all_pts) - set(cpts)). (With CPython's set implementation: proved whenever a process has at most about two fifths C-points on the level or no two F-points are neighbours, in particular for every uniform coarsening and for everything simple_setup_problem makes; refuted for non-uniform coarsening, where the solution then depends on the number of processes.)", "quantifier": "all hierarchies, processes and levels", "why_tests_cant": "fails only for special non-uniform coarsenings", "anchors": ["src/pymgrit/core/mgrit.py: Mgrit.setup_points_and_comm_info (771-776, 802)"]}
{"id": "C24", "title": "Neighbouring C-points across a process boundary", "statement": "Process-count independence (C01) also holds when coarse points are neighbours on the finer grid. (Refuted: the needed value is never communicated.)", "quantifier": "all accepted hierarchies, e.g. coarsening factor 1", "why_tests_cant": "the bundled MPI tests never put a process boundary between two C-points", "anchors": ["src/pymgrit/core/mgrit.py: Mgrit.c_relax, Mgrit.fas_residual, Mgrit.setup_points_and_comm_info (805-813)"]}
{"id": "C25", "title": "AT-MGRIT with full distance is MGRIT", "statement": "On one process AtMgrit(k) with k at least the number of coarsest points computes the same as Mgrit; for general k>=1 the coarsest value at point j is the propagation over the last min(k-1, j) intervals of the old coarse value; k = 1 does nothing.", "quantifier": "all k, grids, states", "why_tests_cant": "unbounded", "anchors": ["src/pymgrit/core/at_mgrit.py: AtMgrit.forward_solve"]}
{"id": "C26", "title": "AT-MGRIT parallel run", "statement": "AtMgrit on several processes gives the same result as on one. (Refuted: forward_solve uses g_coarsest which no code path creates; also the single-level run does nothing.)", "quantifier": "all hierarchies accepted in parallel", "why_tests_cant": "no parallel test of AT-MGRIT exists", "anchors": ["src/pymgrit/core/at_mgrit.py: AtMgrit.forward_solve, AtMgrit.create_coarsest_level"]}
{"id": "C27", "title": "Message tags identify messages", "statement": "Although all levels share the tag ranges, in every run under the hypotheses of C01 each receive gets the message its partner sent for the same operation on the same level in the same round; tags of one operation on one level never repeat.", "quantifier": "all runs and schedules", "why_tests_cant": "depends on message overtaking", "anchors": ["src/pymgrit/core/mgrit.py: Mgrit.send, Mgrit.receive (tags_send, tags_recv)"]}
{"id": "C28", "title": "pack/unpack round trip of the shipped vectors", "statement": "For every shipped vector class, unpack(pack(u)) into any vector of the same shape reproduces u, including every component the time step reads. (Refuted for VectorHeat1D2Pts, whose dtau is not transferred, and for VectorMachine.set_values/get_values with a back part of length 0.)", "quantifier": "all vector values and shapes", "why_tests_cant": "infinite domain", "anchors": ["src/pymgrit/heat/vector_heat_1d_2pts.py: VectorHeat1D2Pts.pack, unpack", "src/pymgrit/induction_machine/vector_machine.py: VectorMachine.pack, unpack, set_values, get_values", "src/pymgrit/dahlquist/dahlquist.py: VectorDahlquist"]}
{"id": "C29", "title": "Vector arithmetic laws of the shipped vectors", "statement": "The shipped vector classes satisfy, over exact scalars, the abelian group and scaling laws that C08-C10 need, on vectors of equal shape; clone is an equal vector and clone_zero is neutral.", "quantifier": "all vectors", "why_tests_cant": "algebraic laws over infinite domains", "anchors": ["src/pymgrit/core/vector.py: Vector", "src/pymgrit/heat/heat_1d.py: VectorHeat1D", "src/pymgrit/dahlquist/dahlquist.py: VectorDahlquist"]}
{"id": "C30", "title": "Grid transfers", "statement": "GridTransferCopy restricts and interpolates to equal vectors; for GridTransferMachine restriction after interpolation is the identity on vectors of the coarse shape; the full-weighting/linear-interpolation pair of the documentation keeps shapes.", "quantifier": "all vectors and sizes", "why_tests_cant": "infinite domain", "anchors": ["src/pymgrit/core/grid_transfer_copy.py: GridTransferCopy", "src/pymgrit/induction_machine/grid_transfer_machine.py: GridTransferMachine"]}
{"id": "C31", "title": "Dahlquist steps satisfy their defining equations", "statement": "For every lambda and step size with non-vanishing denominator the value returned by Dahlquist.step satisfies the defining equation of the selected method. (Refuted for method 'MR' unless lambda = -1.)", "quantifier": "all lambda, step sizes, values, methods", "why_tests_cant": "real-valued inputs", "anchors": ["src/pymgrit/dahlquist/dahlquist.py: Dahlquist.step"]}
{"id": "C32", "title": "Heat equation matrices are the finite-difference stencils", "statement": "Heat1D's and Heat2D's space discretisation matrices applied to any vector equal the 3-point/5-point stencil with Dirichlet elimination for all sizes; the 1-D implicit step is uniquely solvable and satisfies a discrete maximum principle.", "quantifier": "all nx, ny, vectors", "why_tests_cant": "unbounded sizes", "anchors": ["src/pymgrit/heat/heat_1d.py: Heat1D.compute_matrix", "src/pymgrit/heat/heat_2d.py: Heat2D.compute_matrix"]}
{"id": "C33", "title": "Heat2D keeps the Dirichlet boundary values", "statement": "One Heat2D step keeps the prescribed boundary values, for every time integration method. (Refuted for 'FE': boundary values are added to the old ones.)", "quantifier": "all states, boundary data, sizes, methods", "why_tests_cant": "tests use zero boundary values for FE", "anchors": ["src/pymgrit/heat/heat_2d.py: Heat2D.step, Heat2D.compute_rhs"]}
{"id": "C34", "title": "Advection1D conserves mass", "statement": "One backward-Euler step of Advection1D on the periodic grid conserves the sum of the values exactly and the discrete problem is uniquely solvable.", "quantifier": "all sizes, velocities c > 0, step sizes, states", "why_tests_cant": "unbounded", "anchors": ["src/pymgrit/advection/advection_1d.py: Advection1D.compute_matrix, Advection1D.step"]}
{"id": "C35", "title": "Local convergence criteria stop in rank order", "statement": "With conv_crit 2 or 3 a process declares itself finished only if all processes with smaller rank have declared themselves finished in the same or an earlier iteration, or max_iter is reached.", "quantifier": "all convergence histories, process counts, schedules", "why_tests_cant": "schedules and histories", "anchors": ["src/pymgrit/core/mgrit.py: Mgrit.convergence_criterion (434-455), Mgrit.solve"]}
{"id": "C36", "title": "Local convergence criteria leave no message behind", "statement": "With conv_crit 2 or 3 every execution terminates with all messages received even if isend completes only with the matching receive. (Proved if cf_iter >= 1 on every level, a norm of values below the tolerance is below the tolerance, and for conv_crit 3 no process boundary of the finest level separates an F-point from a following C-point; refuted without these conditions.)", "quantifier": "all hierarchies, options, schedules", "why_tests_cant": "hangs depend on buffering, convergence histories and schedules", "anchors": ["src/pymgrit/core/mgrit.py: Mgrit.clean_up, Mgrit.convergence_criterion, Mgrit.send, Mgrit.receive"]}
{"id": "C37", "title": "Newton iteration of AllenCahn is bounded", "statement": "The Newton loop inside one implicit AllenCahn step performs at most newton_maxiter iterations. (Refuted: the loop guard compares the constant 0 with newton_maxiter.)", "quantifier": "all states and parameters", "why_tests_cant": "non-termination cannot be observed by a test", "anchors": ["src/pymgrit/allen_cahn/allen_cahn.py: AllenCahn.step"]}
{"id": "C38", "title": "BDF2 coefficients for variable steps", "statement": "The variable-step BDF2 formula used by Heat1DBDF2 is exact for quadratic polynomials in time (and the BDF1 one for linear polynomials) for all pairs of positive step sizes.", "quantifier": "all step sizes, polynomials", "why_tests_cant": "real-valued inputs", "anchors": ["src/pymgrit/heat/heat_1d_2pts_bdf2.py: Heat1DBDF2.step", "src/pymgrit/heat/heat_1d_2pts_bdf1.py: Heat1DBDF1.step"]}
{"id": "C39", "title": "Residual is consistent over processes for any time norm", "statement": "The convergence value of the global criterion is the time norm of the list of per-point residual norms in time order, the same list for any process count.", "quantifier": "all hierarchies, norms, process counts", "why_tests_cant": "floating-point norms depend on order; the order must be identical", "anchors": ["src/pymgrit/core/mgrit.py: Mgrit.convergence_criterion (428-432), Mgrit.compute_residual, Mgrit.compute_jump"]}
{"id": "C40", "title": "Causality (prefix property)", "statement": "The values of an iteration at time points up to t only depend on values of the previous iterate at time points up to t; changing data later in time never influences earlier points.", "quantifier": "all hierarchies, states, iterations", "why_tests_cant": "2-safety property over all pairs of states", "anchors": ["src/pymgrit/core/mgrit.py: Mgrit.iteration"]}
{"id": "C41", "title": "C-relaxation, FAS restriction, correction and coarsest solve are distribution independent", "statement": "On any number of processes and for any schedule c_relax, fas_residual, error_correction and forward_solve terminate and compute, at every global time index, the weighted relaxation, the FAS right-hand side, the interpolated correction and the sequential solve formulas.", "quantifier": "all hierarchies, levels, states, process counts, schedules", "why_tests_cant": "values cross process boundaries at places that depend on grids and process counts", "anchors": ["src/pymgrit/core/mgrit.py: Mgrit.c_relax, Mgrit.fas_residual, Mgrit.error_correction, Mgrit.forward_solve"]}
{"id": "C42", "title": "Stability of the Dahlquist integrators", "statement": "For lambda <= 0 and every non-negative step size a BE or TR step never increases the modulus of the solution; an FE step does not increase it if and only if step size times lambda is at least -2.", "quantifier": "all lambda <= 0, step sizes, values", "why_tests_cant": "real-valued inputs", "anchors": ["src/pymgrit/dahlquist/dahlquist.py: Dahlquist.step"]}
{"id": "C43", "title": "Brusselator step is the classical Runge-Kutta method", "statement": "Brusselator.step equals the generic explicit Runge-Kutta step of the classical four-stage tableau, whose eight order conditions up to order four hold; the only equilibrium (1, 3) is kept by every step.", "quantifier": "all states and step sizes", "why_tests_cant": "real-valued inputs", "anchors": ["src/pymgrit/brusselator/brusselator.py: brusselator, Brusselator.step"]}
{"id": "C44", "title": "AllenCahn space discretisation and IMEX step", "statement": "For nx >= 3 AllenCahn's matrix is the periodic 5-point Laplacian; the IMEX step returns the only solution of its scheme and changes the sum of the values only by the explicit reaction term.", "quantifier": "all nx >= 3, states, step sizes", "why_tests_cant": "unbounded sizes", "anchors": ["src/pymgrit/allen_cahn/allen_cahn.py: AllenCahn.compute_matrix, AllenCahn.step"]}
{"id": "C45", "title": "Values after a run with a local convergence criterion", "statement": "With conv_crit 2 or 3 the processes stop at different times, yet in every finished run the gathered values start with a copy of the initial value, every F-point is the step from its left neighbour (also across processes), and with conv_crit 2 the residual at every C-point of a process that has not reached max_iter is below the tolerance; hence the result is time stepping if values closer than the tolerance are equal, and for non-expansive steps the error at a point is at most the tolerance times the number of C-points up to it.", "quantifier": "all hierarchies, options, process counts, schedules, convergence histories", "why_tests_cant": "depends on which process converges when; schedules", "anchors": ["src/pymgrit/core/mgrit.py: Mgrit.convergence_criterion, Mgrit.clean_up, Mgrit.solve, Mgrit.send, Mgrit.receive"]}
{"id": "C46", "title": "Vectors stay on their level (spatial coarsening)", "statement": "If step, vector operations, restriction and interpolation are only meant for vectors of their level, every process ends with vectors of level l on level l, ghost copies included. (Proved for the global criteria; refuted for the local criteria, where clean_up sends a vector of level lvl as op 4 and the running neighbour unpacks it into level lvl + 1.)", "quantifier": "all hierarchies, options, process counts, schedules", "why_tests_cant": "needs a process that finishes before its neighbour with spatial coarsening", "anchors": ["src/pymgrit/core/mgrit.py: Mgrit.clean_up, Mgrit.fas_residual"]}
{"id": "C47", "title": "Shared vector objects never change the result", "statement": "The solver keeps references to vector objects, lets several list entries refer to one object and changes objects in place (unpack). If steps return new objects and transfers that return their argument leave its value alone, every run with objects returns exactly the values of the run with immutable values (u, v, g of all levels, convergence information, everything output_fcn saw) and hence those of the reference algorithm. Both classes Mgrit and AtMgrit are covered. Each condition is necessary: a step, a coarse step, a restriction or an interpolation working in place changes the result.", "quantifier": "all applications, hierarchies, options, process counts, schedules", "why_tests_cant": "aliasing needs an application that works in place or a particular sharing pattern on some process", "anchors": ["src/pymgrit/core/mgrit.py: Mgrit.f_relax, Mgrit.c_relax, Mgrit.fas_residual, Mgrit.nested_iteration, Mgrit.error_correction, Mgrit.create_u_v_g", "src/pymgrit/core/vector.py: Vector.unpack", "src/pymgrit/core/at_mgrit.py: AtMgrit.forward_solve"]}
{"id": "C48", "title": "GetDP result files survive the round trip", "statement": "The file written for GetDP holds exactly the time and the values of the vector; reading a result file returns, per time step, the last stored solution (real parts, all unknowns, in order), reports NaN and descending step numbers, and after GetDP appended further steps the last row is the last of them. get_values_from returns the last word of each line; get_preresolution the last word of the fifth line after the first mention of $DofData.", "quantifier": "all vectors, numbers of unknowns, lists of stored solutions, float types with float(str(x)) = x", "why_tests_cant": "needs GetDP; unbounded file contents", "anchors": ["src/pymgrit/induction_machine/helper.py: set_resolution, getdp_read_resolution, get_values_from", "src/pymgrit/induction_machine/induction_machine.py: run_getdp"]}
{"id": "C49", "title": "Index maps between meshes and exact interpolation", "statement": "The dictionaries of a .pre file are inverse to each other; the index maps list the unknowns on either side of the air gap in order when no horizontal or vertical line meets unknowns on both sides, and building them fails with IndexError otherwise; with them, a function that vanishes on the boundary and is reproduced by the weights is interpolated exactly on the fine mesh, unless a new unknown lies in the air gap (then it gets an unrelated coarse value).", "quantifier": "all meshes, files, coordinates, weights, functions", "why_tests_cant": "needs particular meshes", "anchors": ["src/pymgrit/induction_machine/helper.py: pre_file, get_arrays, interpolation_factors, compute_mesh_transfer", "src/pymgrit/induction_machine/grid_transfer_machine.py: GridTransferMachine.interpolation"]}
{"id": "C50", "title": "The induction machine solvers on two or more levels stop with an AttributeError", "statement": "MgritMachine with nested iteration and MgritMachineConvJl with nested iteration or at least one iteration call the method f_exchange, which does not exist: on two or more levels every execution on any number of processes is bounded and ends with the AttributeError on every process, none returns. Without nested iteration or on one level MgritMachine returns what Mgrit returns; on one level MgritMachineConvJl returns sequential time stepping.", "quantifier": "all applications, hierarchies, options, process counts, schedules", "why_tests_cant": "needs GetDP; all schedules", "anchors": ["src/pymgrit/induction_machine/mgrit_machine.py: MgritMachine.nested_iteration", "src/pymgrit/induction_machine/mgrit_machine_conv_jl.py: MgritMachineConvJl.iteration, convergence_criteria, solve"]}
{"id": "C51", "title": "Two-level MGRIT is parareal", "statement": "With two levels, copying transfers and weight 1, the values of iteration k at the C-points are those of the parareal iteration with the fine propagator over one coarse interval and the coarse step (cf_iter CF-sweeps add as many intervals of fine propagation before the correction); the F-points follow by fine steps.", "quantifier": "all applications whose vectors form a group, two-level hierarchies (also non-uniform), cf_iter, iterations, process counts, schedules", "why_tests_cant": "algebraic identity over all inputs and executions", "anchors": ["src/pymgrit/core/mgrit.py: iteration, f_relax, c_relax, fas_residual, forward_solve, error_correction", "src/pymgrit/core/mgrit.py: nested_iteration"]}
{"id": "C52", "title": "Error bounds of two-level runs", "statement": "If the coarse step is beta-Lipschitz and the difference of fine and coarse propagator alpha-Lipschitz, the error after k iterations obeys the superlinear bound with binomial coefficients and the linear bound with the factor alpha*(1+beta+...+beta^(n-1)); for the Dahlquist problem with backward Euler and lambda <= 0 every iteration at least halves the bound, for any grids, coarsening and number of processes.", "quantifier": "all applications, two-level hierarchies, iterations, process counts, schedules; all lambda <= 0 and time grids", "why_tests_cant": "convergence rates over all inputs", "anchors": ["src/pymgrit/core/mgrit.py: iteration", "src/pymgrit/dahlquist/dahlquist.py: Dahlquist.step"]}
{"id": "C53", "title": "A residual below the tolerance bounds the error", "statement": "A run with the residual criterion that stops before the last allowed iteration has at time point i an error of at most gamma^i times the number of C-points up to i times the distance that the tolerance allows, gamma >= 1 being the Lipschitz constant of the fine step; any number of levels, weights, cycles and relaxation counts.", "quantifier": "all applications, hierarchies, options, process counts, schedules", "why_tests_cant": "relates the stopping test to an unknown error for all inputs", "anchors": ["src/pymgrit/core/mgrit.py: solve, convergence_criterion"]}
{"id": "C54", "title": "Time grids in double precision", "statement": "The constructor of Application succeeds iff the required attributes are set and an interval is given by three numbers or an array; number of points, first and last time then agree with t (refuted for linspace with one point). np.linspace grids are non-decreasing, strictly increasing if the step is at least 2^-49 of the largest time. Hierarchies of linspace grids on one interval are accepted by the solver when the numbers of intervals differ by powers of two, or when the step is exact; with other factors a coarse time may be no fine time (refuted), and the solver raises.", "quantifier": "all doubles t_start, t_stop, all numbers of points, levels and coarsening factors", "why_tests_cant": "rounding errors over all intervals and grid sizes", "anchors": ["src/pymgrit/core/application.py: Application.__init__, MetaApplication.__call__", "src/pymgrit/core/mgrit.py: constructor, check of nested time grids"]}
{"id": "C55", "title": "The pictures of MgritWithPlots show what the solver does", "statement": "iteration and nested_iteration perform exactly the listed phases in the listed order. With an integer cf_iter and at least two levels the V-cycle picture of plot_cycle names, from left to right, exactly the relaxations and coarsest solves of nested iteration and of each iteration; the F-cycle picture always shows one extra V-cycle per iteration (refuted). Since the constructor stores a list in cf_iter, plot_cycle raises TypeError on the plotting process (refuted). plot_parallel_distribution: above the bottom row a point lies in the box of the process that owns it, the bottom row names process 0 for all points (refuted), long ticks are the C-points; with one level it fails (refuted). plot_convergence draws one point per iteration with the value of the stopping criterion after one solve without exact zeros in the history; after a second solve it may show values of the first (refuted).", "quantifier": "all numbers of levels, iterations, relaxations, processes, all nested time grids", "why_tests_cant": "plots are not compared with the solver by any test; all level counts and grids", "anchors": ["src/pymgrit/core/mgrit_with_plots.py: plot_convergence, plot_cycle, plot_parallel_distribution", "src/pymgrit/core/mgrit.py: iteration, nested_iteration"]}
{"id": "C56", "title": "PETSc heat equation: operator, step and cached operator", "statement": "On square grids the assembled matrix of HeatPetsc is the five-point discretization of -a*Laplace at inner points and zero in boundary rows; on any other grid it is wrong at every inner point because the factors of the two directions are interchanged (refuted). Every step has exactly one result, is a backward Euler step of the discretized heat equation whose right-hand side belongs to u_exact, keeps the boundary values (integer frequency), and does not amplify differences in the maximum norm, for all grids and time steps. The operator kept from earlier calls belongs to a time step within 1e-8+1e-5*dt of the one asked for, whatever was called before, and to exactly that one if the time steps in use are not that close; otherwise the result of a step depends on earlier calls (refuted).", "quantifier": "all grid sizes, coefficients, values, time steps and histories of calls", "why_tests_cant": "needs all grids and all call histories; the examples only use square grids and doubling time steps", "anchors": ["src/pymgrit/petsc/heat_2D_petsc.py: get_a, compute_rhs, rhs, u_exact, step"]}
{"id": "C57", "title": "PETSc Gray-Scott equations: schemes, bounds, balance and Jacobian", "statement": "On periodic grids with at least three points per direction the assembled matrix is the diffusion operator and the methods EXPL, IMEX and IMPL are forward Euler, implicit diffusion with explicit reaction, and backward Euler. IMEX steps have exactly one result and keep concentrations non-negative (first one at most 1) for time steps below the reaction rates; all methods obey the mass balance and keep the state (1, 0). formJacobian is the derivative of formFunction on square grids and on no other grid (refuted). With the default domain length 1 the initial value is the state (1, 0), which no step changes (refuted), because the perturbation lies between coordinates 1 and 1.5.", "quantifier": "all grid sizes from three points, parameters, values and time steps", "why_tests_cant": "universally quantified grids and states; no test compares Jacobian and function or looks at the initial value", "anchors": ["src/pymgrit/petsc/gray_scott_2d_petsc.py: compute_matrix, step, compute_rhs_imex, formFunction, formJacobian, initial_guess"]}
{"id": "C58", "title": "Vectors and their arrays", "statement": "With the numpy vector classes (clone shares the array, unpack and set_values rebind it) every program of constructions, arithmetic, clones, sends, receives and set_values gives the values it would give if every vector had its own copy, provided no code writes into an array; writing into the array of a clone changes the original (refuted). With VectorPetsc and VectorFiredrake (constructor copies, unpack writes into the array) the same holds, with writing permitted, provided no vector is given the array of another one by set_values; otherwise unpack changes both (refuted).", "quantifier": "all programs over the vector interface, all array contents", "why_tests_cant": "aliasing shows only in particular sequences of operations", "anchors": ["src/pymgrit/heat/heat_1d.py: VectorHeat1D", "src/pymgrit/petsc/vector_petsc.py: VectorPetsc", "src/pymgrit/firedrake/vector_firedrake.py: VectorFiredrake"]}
{"id": "C59", "title": "Arenstorf orbit: Jacobi integral, symmetry, equilibria", "statement": "The right-hand side arenstorf is that of the circular restricted three-body problem: the Jacobi integral is constant along every solution that stays away from the two masses, so time stepping with an exact integrator keeps the value of the initial state over any number of steps; run backwards and reflected, a solution is a solution; for a + b = 1 the states at rest off the axis are exactly the two points at distance 1 from both masses; the initial value is away from the masses and symmetric. The equations of the docstring (x - a instead of x - b in D_2) are different equations (refuted).", "quantifier": "all masses, states, solution curves, time grids", "why_tests_cant": "statements about derivatives and all solutions", "anchors": ["src/pymgrit/arenstorf_orbit/arenstorf_orbit.py: arenstorf, ArenstorfOrbit"]}
{"id": "C60", "title": "Mesh files", "statement": "From a well-formed MSH 4.0 file get_nodes returns, in file order, tag and coordinates of exactly the nodes whose first coordinate is not written 0, 1 or 2, and get_elements all two-node lines and three-node triangles with their reverse dictionaries; compute_data yields the numbered nodes of the .pre file at the coordinates of the .msh file, and KeyError exactly when a line or triangle has a node that was not read; the constructor of GridTransferMachine then gives a transfer that is exact on functions the weights reproduce. Versions other than '4' (the shipped im_3kW.msh has 4.1) are rejected. That all nodes are read is refuted (first coordinate 0), also for files with entities of dimension 3.", "quantifier": "all files, numbers of entities, nodes and elements", "why_tests_cant": "unbounded files; no shipped mesh has a node at x = 0", "anchors": ["src/pymgrit/induction_machine/helper.py: check_version, get_nodes, get_elements, compute_data", "src/pymgrit/induction_machine/grid_transfer_machine.py: GridTransferMachine.__init__"]}
{"id": "C61", "title": "Interpolation weights", "statement": "For points found in a triangle that contains them interp_weights reproduces every function that is linear on these triangles, so the transfer between two meshes is exact for such functions vanishing on the boundary, from the four files to the vector. No weight is negative, so the fill value is never used. For a point found only within the tolerance the weights add up to more than 1 and at most 1 + 2 tol, which bounds the interpolated values; that constants are kept there is refuted; a point outside all triangles silently takes the last triangle and the weights are unbounded (refuted).", "quantifier": "all triangulations, points, values", "why_tests_cant": "all point sets; errors are silent", "anchors": ["src/pymgrit/induction_machine/helper.py: interp_weights, compute_mesh_transfer, cart2pol"]}
{"id": "C62", "title": "Time steps computed by GetDP", "statement": "The two commands of run_getdp give GetDP exactly the options of the constructor, the time step, the final time and the file names, if no path or option has a character with a meaning for the shell (refuted for a directory with a space). If GetDP does what these options say, step returns the unknowns and the eight output values of the last time step of GetDP's time loop; steps over a time grid whose points are whole numbers of GetDP time steps apart give the vector of one uninterrupted run of GetDP, at the last point. Whatever GetDP does, a returned vector comes from an input without NaN, return codes 0 and the right number of unknowns, and has no NaN. The constructor sets up what step needs. That the returned vector belongs to t_stop on every time grid is refuted: the time step is taken from the first interval.", "quantifier": "all vectors, sizes, grids, option values, file systems, behaviours of GetDP", "why_tests_cant": "GetDP is not available in the tests; step and run_getdp have no test", "anchors": ["src/pymgrit/induction_machine/induction_machine.py: InductionMachine.__init__, step, run_getdp", "src/pymgrit/induction_machine/helper.py: is_numeric"]}
{"id": "C63", "title": "Spatial coarsening for the heat equation", "statement": "With GridTransferHeat or copies between nested spatial grids, the hypotheses of the solver theorems hold with one vector size per level. Every execution on any number of processes ends, and after enough iterations the values at all time points are the one and only solution of the backward Euler equations on the finest space-time grid, although coarse levels use coarser spatial grids. The coarse matrix is the Galerkin product of restriction, fine matrix and interpolation. Restriction after interpolation is the mean with weights 1, 6, 1 over 8 of neighbouring values, so the transfer is not lossless (refuted). On every level the step is the backward Euler step on the spatial grid of that level.", "quantifier": "all numbers of grid points, levels, processes, right-hand sides, initial values, intervals, diffusion coefficients", "why_tests_cant": "the tests of the example only run it; convergence to the fine solution needs all grids", "anchors": ["examples/example_spatial_coarsening.py", "src/pymgrit/heat/heat_1d.py: Heat1D"]}
{"id": "C64", "title": "User-defined stopping criterion", "statement": "With the overridden convergence_criterion of the example (maximal relative change at C-points, collected by allgather), every execution on any number of processes ends with the same result. The approximations are those of Mgrit; the number of iterations follows from the new criterion on the approximations of all C-points; all processes have the same history, with the value of the constructor in front. If the run stops early, every nonzero component at every C-point changed by less than tol percent in the last iteration; components that become zero are ignored, so the run may stop after any change (refuted without the restriction). The value of the constructor is 100 as soon as one component at a C-point is not zero, and is returned as first value of the history.", "quantifier": "all applications, vector classes, grids, options, numbers of processes, schedules, criteria that can be split over processes", "why_tests_cant": "the example is not tested; agreement of all processes over all distributions of C-points and schedules needs a proof", "anchors": ["examples/example_convergence_criterion.py", "src/pymgrit/core/mgrit.py: convergence_criterion, solve"]}
{"id": "C65", "title": "Accuracy of the result for Dahlquist's equation", "statement": "For lambda <= 0 and in every execution on any number of processes, the values after enough iterations differ from exp(lambda (t_i - t_0)) by at most lambda^2 h (t_i - t_0) for the Euler methods (forward Euler for h lambda >= -2) and |lambda|^3 h^2 (t_i - t_0) / 12 for the trapezoidal rule, h the largest step, whatever methods the coarse levels use. A run with the residual criterion that stops early is that accurate up to tol per C-point. The mid-point rule does not converge to the solution for lambda = -2 (refuted).", "quantifier": "all grids, levels, methods, lambda <= 0, numbers of processes, schedules, options", "why_tests_cant": "the tests compare single values of steps; orders of accuracy and all grids need a proof", "anchors": ["src/pymgrit/dahlquist/dahlquist.py: Dahlquist", "src/pymgrit/core/mgrit.py"]}
{"id": "C66", "title": "Exceptions thrown by user code", "statement": "Exceptions of user code leave the solver and kill the process. Wherever they occur and on however many processes: every execution has a bounded number of steps, a process that returns returns exactly what it returns without exceptions, processes that neither return nor raise wait for a message. If a process raises before the barrier at the end of solve, no process ever returns. This is false for an exception in the output function called after the barrier (refuted).", "quantifier": "all hierarchies, options, numbers of processes, schedules and places where an exception may occur", "why_tests_cant": "the tests never run with an exception in user code on several processes; the places and schedules are unbounded", "anchors": ["src/pymgrit/core/mgrit.py: Mgrit.solve, Mgrit.__init__"]}
{"id": "C67", "title": "Accuracy of the result for the heat equation", "statement": "For the heat equation in one dimension with any solution whose truncation error at the grid points is at most tau, and in every execution on any number of processes: the values after enough iterations differ from the solution of the differential equation by at most tau (t_i - t_0), and a run with the residual criterion that stops early by that plus tol per C-point, also with coarser spatial grids on coarse levels. For the problem of the examples, with solution sin(pi x) cos(t), tau is dt/2 + a pi^4 dx^2 / 12: first order in time and second order in space.", "quantifier": "all spatial and time grids, levels, options, numbers of processes, schedules, diffusion coefficients a >= 0", "why_tests_cant": "the tests compare single steps; the examples only plot errors; an error bound for all grids needs a proof", "anchors": ["src/pymgrit/heat/heat_1d.py: Heat1D", "examples/example_heat_1d.py", "examples/example_spatial_coarsening.py", "examples/at_mgrit/runme_error_heat1d.py"]}
{"id": "C68", "title": "Optimization workflow with a master and parallel-in-time workers", "statement": "In the optimization workflow, process 0 of the world runs an optimizer and all others solve a problem for each geometry it asks for. With at least one worker and any solver that ends on the workers alone, every execution ends, nobody blocks, the optimizer returns what it returns for the objective function of the gathered values, and every worker solves exactly one problem per evaluation; with Mgrit as solver the result does not depend on the number of workers. find_nearest gives the first nearest time point. With one process the optimizer silently runs on a constant function.", "quantifier": "all optimizers (finite decision trees), numbers of workers, solvers, schedules", "why_tests_cant": "the example is not tested; matching of broadcasts in two loops over all schedules and numbers of evaluations", "anchors": ["examples/optimize_geometry_im/optimization_workflow.py"]}
{"id": "C69", "title": "Solution files written by the output function", "statement": "In examples/example_output_fcn.py every process saves its part of the solution after every iteration and process 0 reads the files back. For every number of processes, every order in which the processes write and every order in which the directory lists the files, the data read for an iteration are all times of the finest grid in order, each once, with the solution of the sequential iteration after that iteration; for the last iteration it is the solution the solver returns. All folders that are read exist. This needs folders without files of ranks beyond the process count: after an earlier run with more processes the old files are read as well and time points appear twice (refuted).", "quantifier": "all hierarchies, options, process counts, schedules, write orders and directory listings", "why_tests_cant": "the example is not tested; write interleavings and listing orders depend on the machine", "anchors": ["examples/example_output_fcn.py"]}
{"id": "C70", "title": "Accuracy of the result for the advection equation", "statement": "For Advection1D with velocity c >= 0 on any time-grid hierarchy with copy transfers, let g be any periodic function that has the initial values at the grid points and a Lipschitz continuous derivative (constant M). After enough iterations every value the solver returns differs from the solution g(x - c (t - t_0)) of the advection equation by at most M c (h + c ht) / 2 (t - t_0), with h and ht the largest space and time steps, and the mass is the initial mass at every time point. With the residual criterion, a run that stops before the last allowed iteration is that accurate up to tol for every C-point.", "quantifier": "all numbers of processes, schedules, hierarchies, options, grids, velocities >= 0", "why_tests_cant": "tests compare one step with stored numbers", "anchors": ["src/pymgrit/advection/advection_1d.py", "src/pymgrit/core/mgrit.py"]}
{"id": "C71", "title": "Accuracy of the result for the heat equation in two dimensions", "statement": "For Heat2D with backward Euler on level 0 (any methods on the other levels), any time-grid hierarchy and copy transfers: if a function U has the boundary and initial values of the problem and truncation error at most tau at the inner grid points, every value the solver returns after enough iterations differs from U by at most tau (t - t_0); with the residual criterion, a run that stops before the last allowed iteration is that accurate up to tol for every C-point. For the problem of examples/example_heat_2d.py (any extents, grids, diffusion coefficient) with backward Euler or Crank-Nicolson on level 0, every value returned after enough iterations equals the exact solution at the grid points, so the difference the script prints is 0; with the residual criterion and backward Euler the printed difference is at most the sum over the time points of tol for every C-point up to it.", "quantifier": "all numbers of processes, schedules, hierarchies, options, grids, coefficients >= 0, right-hand sides, boundary values", "why_tests_cant": "tests compare one step with stored numbers", "anchors": ["src/pymgrit/heat/heat_2d.py", "examples/example_heat_2d.py", "src/pymgrit/core/mgrit.py"]}
{"id": "C72", "title": "Firedrake diffusion problem: hidden state, integral, norm", "statement": "Diffusion2D keeps the time step, the right-hand side and the last solution as attributes of the object, and its solver starts from the last solution. Nevertheless every call of step returns the only solution of the backward Euler equation with the interior penalty form for its own arguments, whatever was called before. VectorFiredrake satisfies the vector space and norm laws. In every run on any time-grid hierarchy with copy transfers, after enough iterations every returned function has the integral of the initial function and the L2 norm does not grow in time; with the residual criterion, a run that stops before the last allowed iteration is within tol for every C-point of the time stepping solution in the L2 norm.", "quantifier": "all meshes with the stated properties, sequences of calls, numbers of processes, schedules, hierarchies, options, kappa >= 0", "why_tests_cant": "Firedrake is not available in the tests; the statement is about all meshes and call sequences", "anchors": ["src/pymgrit/firedrake/diffusion_2d_firedrake.py", "src/pymgrit/firedrake/vector_firedrake.py"]}
{"id": "C73", "title": "Conserved quantities are conserved by every iteration", "statement": "If a quantity is additive, is conserved by the transfers between levels, and a time step from s to t of any level adds S(t) - S(s) to it (nothing, if S is constant), then in every run of the class Mgrit with at least one iteration, every returned value, and every value handed to the output function after an iteration, at time t has the quantity of the initial value plus S(t) - S(t_0), whether the run has converged or not, for any weight, cycle type, number of CF-relaxations, initial guess, hierarchy, number of processes and schedule. For the advection equation the sum of the values is conserved, for the Firedrake diffusion problem the integral. For AtMgrit the statement is false.", "quantifier": "all applications with such a quantity, options, hierarchies, numbers of processes, schedules", "why_tests_cant": "a test checks the quantity for a few runs, up to rounding, and usually after convergence", "anchors": ["src/pymgrit/core/mgrit.py", "src/pymgrit/core/at_mgrit.py", "src/pymgrit/advection/advection_1d.py", "src/pymgrit/firedrake/diffusion_2d_firedrake.py"]}
{"id": "C74", "title": "Messages of a run", "statement": "Every message of log_info is written by exactly one process. The coarsening factor of a level is the number of fine steps in the first coarse step; without the warning about non-uniform coarsening, and for factors below 100000, the coarse grid consists of every m-th fine point, and with the warning it does not; for larger factors the warning can be missing. The overview shows the smallest and largest time, the number of points, the largest step and the factors of all levels; it fails exactly for a single time point. In every run with tol > 0 the logged convergence factors have divisors of at least tol, relate the logged values, multiply to the last value, and the last factor of a run that stops early is below 1.", "quantifier": "all hierarchies, options, numbers of processes, schedules", "why_tests_cant": "the tests do not read the log; factors of 100000 need large grids", "anchors": ["src/pymgrit/core/mgrit.py", "src/pymgrit/core/at_mgrit.py"]}
