{"id": "C01", "title": "BDF time derivative is exact for polynomials", "statement": "When the history of step sizes handed to an implicit BDF scheme of order k (1, 2 or 3) is full (all k step sizes positive), the weighted sum of the new and the k previous values of any polynomial of degree at most k equals the exact derivative of that polynomial at the new time.", "quantifier": "all polynomials of degree <= k, all positive variable step sizes, all times", "why_tests_cant": "a test samples a few step-size ratios; the weights are rational functions of the ratios and a wrong term can vanish on equal steps", "anchors": ["include/pf-applications/time_integration/time_schemes.h: BDF1Scheme/BDF2Scheme/BDF3Scheme::compute_weights", "include/pf-applications/time_integration/time_integrators.h: compute_time_derivative"]}
{"id": "C02", "title": "Start-up uses a lower order and never reads missing history", "statement": "While fewer than k past steps exist (the missing step sizes are zero), a BDF scheme of order k acts exactly as the scheme of the order given by the number of available steps; weights of missing solutions are zero, no division by zero happens, and the weights always sum to zero, so that a constant solution has zero time derivative.", "quantifier": "all schemes, all numbers of steps taken so far, all positive step sizes", "why_tests_cant": "start-up happens once per run and only for particular orders; a wrong weight there is masked by the solver", "anchors": ["include/pf-applications/time_integration/time_schemes.h: BDFScheme::effective_order, compute_weights"]}
{"id": "C03", "title": "Stored step sizes follow the accepted steps", "statement": "After any sequence of accepted steps (update) and retries of the current step (replace), the stored step sizes are the step size of the current attempt followed by the most recent accepted step sizes, newest first, truncated to the order of the scheme and padded with zero.", "quantifier": "all finite sequences of accepted steps and retries with arbitrary step sizes", "why_tests_cant": "the property ranges over histories of arbitrary length mixing failures and successes", "anchors": ["include/pf-applications/time_integration/time_integrator_data.h: TimeIntegratorData::update_dt, replace_dt, get_all_dt"]}
{"id": "C04", "title": "Saved time integrator state is restored", "statement": "Loading a saved time integrator state yields the same order and the same step sizes, for every scheme the program supports (implicit schemes of every order and explicit schemes).", "quantifier": "all schemes and all step-size histories", "why_tests_cant": "existing restart tests only cover implicit schemes; explicit ones have order 0", "anchors": ["include/pf-applications/time_integration/time_integrator_data.h: TimeIntegratorData::save, load, get_current_dt"]}
{"id": "C05", "title": "Time derivative uses the last accepted solutions", "statement": "In the time loop, at every attempt of a step the previous solutions entering the time derivative are exactly the last k accepted solutions, newest first; a failed attempt leaves no trace in them.", "quantifier": "all sequences of successful and failed attempts, all history lengths", "why_tests_cant": "needs arbitrary interleavings of failures and successes", "anchors": ["include/pf-applications/time_integration/solution_history.h: SolutionHistory::commit_old_solutions, set_recent_old_solution, filter", "applications/sintering/include/pf-applications/sintering/driver.h: run"]}
{"id": "C06", "title": "Simulated time advances to the requested end and not beyond", "statement": "The simulated time strictly increases with every accepted step, never exceeds the requested end time, and the run stops exactly at the end time or aborts with an error.", "quantifier": "all parameter values with positive step sizes, all patterns of solver successes and failures", "why_tests_cant": "depends on the interplay of growth, bisection and clipping over the entire run", "anchors": ["applications/sintering/include/pf-applications/sintering/driver.h: run (time loop)", "applications/sintering/include/pf-applications/sintering/parameters.h: TimeIntegrationData"]}
{"id": "C07", "title": "The time loop terminates whatever the solver does", "statement": "For any (even adversarial) sequence of solver successes and failures the time loop performs finitely many attempts: it ends at the requested end time or throws after the step size has fallen to the allowed minimum.", "quantifier": "all infinite sequences of solver outcomes, all positive parameters", "why_tests_cant": "termination for all schedules cannot be tested", "anchors": ["applications/sintering/include/pf-applications/sintering/driver.h: run, process_failure"]}
{"id": "C08", "title": "A failed step is rolled back", "statement": "After a failed attempt the solution is the solution from before the attempt, the time is unchanged and the step size is halved; if the halved step size is not larger than the allowed minimum an exception is raised instead.", "quantifier": "all states and all failures", "why_tests_cant": "failures can happen at any step with any state", "anchors": ["applications/sintering/include/pf-applications/sintering/driver.h: process_failure"]}
{"id": "C09", "title": "Restart continues as the uninterrupted run", "statement": "A run resumed from a checkpoint that contains the full history performs the same sequence of (time, step size, step-size history) as the run that was not interrupted.", "quantifier": "all checkpoints of all runs", "why_tests_cant": "restart tests compare a few printed numbers for constant step sizes only", "anchors": ["applications/sintering/include/pf-applications/sintering/driver.h: run (restart output, update_dt), restart constructor", "include/pf-applications/time_integration/time_integrator_data.h: save, load"]}
{"id": "C10", "title": "Output cadence", "statement": "Between two consecutive regular result outputs at least the requested output interval has passed, every accepted step after which the interval has passed produces an output, and the last step always produces one.", "quantifier": "all sequences of accepted steps and all intervals", "why_tests_cant": "ranges over all step sequences", "anchors": ["applications/sintering/include/pf-applications/sintering/driver.h: run (output block)", "src/base/timer.cc: TimerPredicate::now"]}
{"id": "C11", "title": "Checkpoint rotation", "statement": "With at most n checkpoints allowed, the checkpoint names cycle through n names: at any moment the n most recently written checkpoints are all still present and at most n distinct names have been used.", "quantifier": "all numbers of checkpoints written and all n >= 1", "why_tests_cant": "needs unbounded counters", "anchors": ["applications/sintering/include/pf-applications/sintering/driver.h: run (restart output), output_result generate_name"]}
{"id": "C12", "title": "Block vector editing", "statement": "Moving a block changes only the order: the moved block is at the requested position, the others keep their relative order and no content is lost; inserting and then removing a block restores the vector; removing several blocks in descending order and re-inserting them in ascending order restores the vector.", "quantifier": "all vectors, all valid positions", "why_tests_cant": "all index pairs and sizes", "anchors": ["include/pf-applications/lac/dynamic_block_vector.h: DynamicBlockVector::move_block, insert_block, remove_block", "include/pf-applications/time_integration/time_marching.h: TimeMarchingARKode"]}
{"id": "C13", "title": "Changing the number of order parameters keeps the other fields", "statement": "When the grain tracker changes the number of order parameters, concentration, chemical potential, the surviving order parameters and (for simulations coupled with mechanics) all displacement blocks keep their content.", "quantifier": "all old and new numbers of order parameters and all numbers of displacement blocks", "why_tests_cant": "requires particular combinations of coupled mechanics and grain remapping", "anchors": ["applications/sintering/include/pf-applications/sintering/driver.h: run_grain_tracker", "include/pf-applications/lac/dynamic_block_vector.h: move_block, reinit"]}
{"id": "C14", "title": "Nonlinear solver reports success only for converged solutions", "statement": "If the nonlinear solver returns normally, the final residual norm satisfies the absolute or the relative tolerance (or a user supplied check reported success); a residual that is not a number is never accepted as converged.", "quantifier": "all residual functions (any sequence of norms, including NaN), all tolerances", "why_tests_cant": "convergence histories are unbounded in variety", "anchors": ["include/pf-applications/lac/newton.h: NewtonSolver::solve", "include/pf-applications/lac/solvers_nonlinear.h: DampedNewtonSolver::solve, NewtonSolverSolverControl::check"]}
{"id": "C15", "title": "Nonlinear solver terminates within its budget", "statement": "The nonlinear solver performs at most max_iter iterations and evaluates at most 100 damped trial steps per iteration; with damping each accepted iterate has a strictly smaller residual norm than the one before.", "quantifier": "all residual functions and parameter values", "why_tests_cant": "arbitrary residual sequences", "anchors": ["include/pf-applications/lac/newton.h: NewtonSolver::solve", "include/pf-applications/lac/solvers_nonlinear.h: DampedNewtonSolver::solve"]}
{"id": "C16", "title": "Distributed particle numbering = connected components", "statement": "The distributed stitching assigns two local particles (on whatever processes) the same global particle id if and only if they are connected by a chain of touching particles; the global ids are 0..n-1 without gaps.", "quantifier": "all numbers of processes, all distributions of particles, all symmetric contact relations", "why_tests_cant": "all graphs and all partitions", "anchors": ["src/grain_tracker/distributed_stitching.cc: perform_distributed_stitching, connected_components, perform_distributed_stitching_via_graph", "include/pf-applications/grain_tracker/distributed_stitching.h"]}
{"id": "C17", "title": "Both stitching algorithms agree and terminate", "statement": "The graph based and the message based stitching give the same global ids, both terminate, and the reported number of particles equals the number of connected components.", "quantifier": "all contact relations and distributions", "why_tests_cant": "all graphs", "anchors": ["src/grain_tracker/distributed_stitching.cc: perform_distributed_stitching, perform_distributed_stitching_via_graph, number_of_stitched_particles"]}
{"id": "C18", "title": "Flood fill labels connected regions", "statement": "Two locally owned cells get the same local particle label exactly when they are connected through neighbouring locally owned cells whose order parameter exceeds the threshold; cells below the threshold stay unlabelled; labels are contiguous.", "quantifier": "all meshes (including locally refined ones), all fields, all thresholds", "why_tests_cant": "all meshes and fields", "anchors": ["include/pf-applications/grain_tracker/distributed_stitching.h: run_flooding, detect_local_particle_groups, run_flooding_prep"]}
{"id": "C19", "title": "Particle measures and centers do not depend on the partition", "statement": "Volume, center and maximum value of a particle computed over several processes equal those computed from all cells of the particle at once.", "quantifier": "all partitions of the cells onto processes", "why_tests_cant": "all partitions", "anchors": ["include/pf-applications/grain_tracker/distributed_stitching.h: compute_particles_info, compute_particles_max_values"]}
{"id": "C20", "title": "Grain identity transfer is a partial injection within an order parameter", "statement": "Transferring grain ids from one time to the next assigns each new grain at most one old id, never the same old id to two new grains, and only old ids of the same order parameter whose segment region intersects the new one; every new grain appears in the result.", "quantifier": "all sets of old and new grains", "why_tests_cant": "all configurations of grains", "anchors": ["include/pf-applications/grain_tracker/tracking.h: transfer_grain_ids"]}
{"id": "C21", "title": "Conflicts in grain identity transfer are resolved in favour of the nearest grain", "statement": "If several new grains compete for the same old grain, the one nearest to it obtains its id, and a new grain with several candidate old grains obtains the nearest of them.", "quantifier": "all sets of old and new grains", "why_tests_cant": "all configurations of grains", "anchors": ["include/pf-applications/grain_tracker/tracking.h: transfer_grain_ids", "include/pf-applications/grain_tracker/grain.h: Grain::distance"]}
{"id": "C22", "title": "Grain numbering after tracking", "statement": "After tracking, distinct detected grains carry distinct grain ids, new grains receive ids that no current grain has, the cell/particle lookup returns the renamed grain, and an id, once retired, is not given to another grain later.", "quantifier": "all histories of grain configurations", "why_tests_cant": "ranges over histories", "anchors": ["include/pf-applications/grain_tracker/tracker.h: Tracker::track, build_inverse_mapping"]}
{"id": "C23", "title": "Order parameter assignment is a proper colouring", "statement": "After reassignment two different grains closer than the allowed buffer never share an order parameter, the order parameters in use are 0..k-1 without gaps and k does not exceed the allowed maximum (otherwise an exception is thrown).", "quantifier": "all grain configurations and distances", "why_tests_cant": "all graphs", "anchors": ["include/pf-applications/grain_tracker/tracker.h: Tracker::reassign_grains", "include/pf-applications/grain_tracker/grain.h: Grain::distance, transfer_buffer"]}
{"id": "C24", "title": "Remapping order parameters preserves grain values", "statement": "Executing the remapping moves the field values of every grain from its old to its new order parameter simultaneously for all grains: afterwards each moved grain has its former values in the new order parameter, the vacated entries are zero and everything else is unchanged, also when moves form chains or cycles.", "quantifier": "all permutations/chains of moves, all fields, all cells", "why_tests_cant": "all combinations of moves", "anchors": ["include/pf-applications/grain_tracker/tracker.h: Tracker::remap", "include/pf-applications/grain_tracker/remap_graph.h: RemapGraph", "include/pf-applications/grain_tracker/remapping.h: Remapping"]}
{"id": "C25", "title": "Remapping schedule resolves cycles", "statement": "The remap graph breaks every cycle of moves by one temporary buffer per broken edge, and orders the remaining moves such that a value is read before it is overwritten; the process terminates.", "quantifier": "all sets of moves", "why_tests_cant": "all graphs", "anchors": ["include/pf-applications/grain_tracker/remap_graph.h: RemapGraph::add_remapping, resolve_cycles, rearrange"]}
{"id": "C26", "title": "Initial mesh subdivisions", "statement": "The subdivision of the initial mesh into (prime number of coarse cells) x (power-of-two refinements) keeps the cell counts consistent: coarse cells times 2^refinements equals the returned decomposition, the primes are at most max_prime and the choice minimises the deviation from the requested size.", "quantifier": "all domain sizes, element numbers and prime limits", "why_tests_cant": "all integers", "anchors": ["src/grid/grid_tools.cc: get_primes, decompose_to_prime_tuple, adjust_divisions_to_primes", "include/pf-applications/grid/grid_tools.h: make_initial_refines"]}
{"id": "C27", "title": "Bounding box filter", "statement": "A point is classified as inside, boundary or outside of the box in exactly one way, consistent with its coordinates; a cell edge crossing a box face is cut exactly at the face, so that the modified field takes the iso value there; cells that touch the box are not discarded.", "quantifier": "all boxes, points, edges and iso levels", "why_tests_cant": "all real coordinates", "anchors": ["include/pf-applications/grid/bounding_box_filter.h: BoundingBoxFilter", "include/pf-applications/grid/grid_tools.h: filter_mesh_withing_bounding_box"]}
{"id": "C28", "title": "Free energy derivatives are consistent", "statement": "The first derivatives reported by the sintering free energy are the derivatives of the energy, the second derivatives are the derivatives of the first ones, and the mixed derivatives are symmetric, for any number of grains.", "quantifier": "all states (c, eta_1..eta_n), all n, all A and B", "why_tests_cant": "finite differences at a few points cannot settle an identity in n+1 variables for all n", "anchors": ["applications/sintering/include/pf-applications/sintering/free_energy.h: FreeEnergy::Evaluation, apply_d2f_detaidetaj", "include/pf-applications/numerics/power_helper.h"]}
{"id": "C29", "title": "Bulk states have zero energy and zero driving force; material data is recovered", "statement": "Void (c=0, all eta=0) and every bulk grain (c=1, one eta=1) have zero free energy and are stationary, the free energy is non-negative for order parameters between 0 and 1, and the model parameters derived from surface and grain-boundary energy reproduce these energies.", "quantifier": "all n, all grains, all positive material parameters", "why_tests_cant": "all parameters", "anchors": ["applications/sintering/include/pf-applications/sintering/free_energy.h: FreeEnergy::Evaluation", "applications/sintering/src/tools.cc: compute_energy_params"]}
{"id": "C30", "title": "Scalar mobility: derivatives consistent and mobility non-negative", "statement": "The scalar mobility is non-negative for non-negative coefficients and order parameters; the derivative with respect to c and eta used in the tangent is the derivative of the mobility; the linearised flux is the derivative of the flux.", "quantifier": "all states and coefficients", "why_tests_cant": "all real states", "anchors": ["applications/sintering/include/pf-applications/sintering/mobility.h: MobilityScalar"]}
{"id": "C31", "title": "Tensorial mobility: derivatives consistent", "statement": "The derivative of the tensorial mobility with respect to the concentration that is used in the tangent equals the derivative of the mobility used in the residual.", "quantifier": "all states and coefficients", "why_tests_cant": "tangent tests use tolerances and special states", "anchors": ["applications/sintering/include/pf-applications/sintering/mobility.h: MobilityTensorial::apply_M, apply_M_derivative, dM_dc"]}
{"id": "C32", "title": "Piecewise linear temperature", "statement": "The temperature function passes through every given pair, interpolates linearly between neighbours (hence stays between their values), continues constantly or linearly outside, and does not depend on the order in which pairs were added.", "quantifier": "all sets of pairs with distinct abscissae and all arguments", "why_tests_cant": "all real arguments", "anchors": ["include/pf-applications/numerics/functions.h: Function1DPiecewise"]}
{"id": "C33", "title": "Advection forces obey action = reaction", "statement": "The forces the grains exert on each other cancel pairwise, so the sum of all grain forces is zero; the total force does not depend on the distribution over processes.", "quantifier": "all states and all grain numbers", "why_tests_cant": "all real states", "anchors": ["applications/sintering/include/pf-applications/sintering/operator_advection.h: AdvectionOperatorGeneric::do_evaluate_forces"]}
{"id": "C34", "title": "Rotation follows the torque", "statement": "The rigid body rotation induced by the torque never works against the force that created it (in 2D and 3D), and the rotation velocity vanishes at the centre of the grain.", "quantifier": "all forces, lever arms, centres and numbers of cells", "why_tests_cant": "all real vectors", "anchors": ["include/pf-applications/base/tensor.h: cross_product", "applications/sintering/include/pf-applications/sintering/operator_advection.h: do_evaluate_forces", "applications/sintering/include/pf-applications/sintering/advection.h: calc_rotation_velocity, AdvectionCellData::cross"]}
{"id": "C35", "title": "Advection velocity lookup", "statement": "For every cell and grain the velocity that is used belongs to that grain, also if the cut-off of irrelevant grains is enabled; the lookup tables cover all cells for both force models.", "quantifier": "all sets of relevant grains, all cells", "why_tests_cant": "all subsets of grains", "anchors": ["applications/sintering/include/pf-applications/sintering/advection.h: AdvectionVelocityData::get_velocity, reinit", "applications/sintering/include/pf-applications/sintering/operator_advection.h: AdvectionOperatorWeighted::evaluate_forces", "applications/sintering/include/pf-applications/sintering/operator_sintering_data.h: get_grain_to_relevant_grain"]}
{"id": "C36", "title": "Cut-off storage layout", "statement": "With cut-off enabled the compact storage has exactly one slot per stored component of every cell and quadrature point, reading back at the offset of a cell gives the values of its relevant grains in order, and building the tables stays inside the allocated memory.", "quantifier": "all numbers of cells, lanes, grains and cut-off patterns", "why_tests_cant": "memory layout errors show up only for particular sizes", "anchors": ["applications/sintering/include/pf-applications/sintering/operator_sintering_data.h: set_component_mask, fill_quadrature_point_values, get_relevant_grains"]}
{"id": "C37", "title": "Initial order parameters of regular packings", "statement": "In the circle and hypercube packings every grain gets exactly one order parameter, neighbouring grains get different ones, and the order parameters are numbered contiguously.", "quantifier": "all numbers of grains and (>= 2) order parameters", "why_tests_cant": "all sizes", "anchors": ["applications/sintering/include/pf-applications/sintering/initial_values_circle.h: InitialValuesCircle", "applications/sintering/include/pf-applications/sintering/initial_values_hypercube.h: InitialValuesHypercube"]}
{"id": "C38", "title": "Initial particle cloud: domain and supports", "statement": "The reported domain encloses all particles, touching particles get different order parameters, and two particles with the same order parameter do not overlap, so the initial value of an order parameter at a point does not depend on the particle order.", "quantifier": "all particle clouds", "why_tests_cant": "all coordinates, also negative ones", "anchors": ["applications/sintering/include/pf-applications/sintering/initial_values_cloud.h: InitialValuesCloud", "applications/sintering/include/pf-applications/sintering/initial_values_spherical.h: is_in_sphere"]}
{"id": "C39", "title": "Initial fields are bounded and consistent", "statement": "Initial order parameters and the concentration lie in [0,1], the concentration is at least every order parameter, equals one inside and zero outside of the particle, and the diffuse interface lies where the chosen interface direction says (inside, middle, outside).", "quantifier": "all points, centres, radii, interface widths", "why_tests_cant": "all real points", "anchors": ["applications/sintering/include/pf-applications/sintering/initial_values_ch_ac.h: do_value", "applications/sintering/include/pf-applications/sintering/initial_values_spherical.h: is_in_sphere", "applications/sintering/include/pf-applications/sintering/initial_values_microstructure.h: op_value"]}
{"id": "C40", "title": "Particle file parsing", "statement": "Every line is split at the commas into fields which joined again give the line; the number of fields is the number of commas plus one; particles get consecutive ids in file order and the header is skipped.", "quantifier": "all texts", "why_tests_cant": "all strings", "anchors": ["applications/sintering/src/csv_reader.cc: CSVRow", "applications/sintering/include/pf-applications/sintering/particle.h: read_particles"]}
{"id": "C41", "title": "Checkpointed fields are restored", "statement": "Writing a set of fields to a checkpoint and reading it with the same mesh and partition returns the same values for every degree of freedom even if the degrees of freedom are numbered differently; reading fewer fields than were written returns the first ones.", "quantifier": "all fields, numberings, process counts and numbers of fields", "why_tests_cant": "all sizes and numberings", "anchors": ["include/pf-applications/base/solution_serialization.h: SolutionSerialization::save, load, create_unique_dof_map", "applications/sintering/include/pf-applications/sintering/driver.h: restart constructor"]}
{"id": "C42", "title": "Limiting field values", "statement": "Limiting a solution clamps exactly the selected blocks to the given range, changes nothing else, changes nothing that already lies in the range, and is idempotent.", "quantifier": "all vectors, masks and ranges", "why_tests_cant": "all vectors", "anchors": ["include/pf-applications/numerics/phasefield_tools.h: limit_vector_values", "applications/sintering/include/pf-applications/sintering/operator_sintering_data.h: build_pf_component_mask"]}
{"id": "C43", "title": "Timer predicates fire at the configured rate", "statement": "A call-count timer with interval n fires at exactly every n-th call; a simulation-time timer fires whenever the interval has passed since it last fired and never fires twice within less than the interval (except for repeated calls at the same time); disabled timers never fire.", "quantifier": "all call sequences and intervals", "why_tests_cant": "all call histories", "anchors": ["src/base/timer.cc: TimerPredicate::now, reinit"]}
{"id": "C44", "title": "Mesh adaptation respects the level limits", "statement": "Marking cells for coarsening and refinement never marks a cell at the maximum allowed level for refinement nor a cell at the minimum level for coarsening.", "quantifier": "all meshes, fields and parameters", "why_tests_cant": "all meshes", "anchors": ["include/pf-applications/grid/grid_tools.h: prepare_coarsening_and_refinement, make_initial_refines"]}
{"id": "C45", "title": "Explicit schemes", "statement": "Forward Euler and the four stage Runge-Kutta scheme compute the classical update: they integrate constant (resp. cubic) right-hand sides in time exactly, evaluate the right-hand side at the classical stage times and states, and leave stationary components as minus the right-hand side.", "quantifier": "all right-hand sides, states and step sizes", "why_tests_cant": "all real data", "anchors": ["include/pf-applications/time_integration/time_marching.h: TimeMarchingExplicit::make_step", "include/pf-applications/time_integration/time_schemes.h: ForwardEulerScheme, RungeKutta4Scheme"]}
{"id": "C46", "title": "Grain distances", "statement": "The distance between two grains is symmetric, for spherical grains it is the minimum over the segments and never larger than the true gap between the spheres; two grains farther apart than their transfer buffers allow have disjoint buffered regions.", "quantifier": "all grains with arbitrary segments", "why_tests_cant": "all real coordinates", "anchors": ["include/pf-applications/grain_tracker/grain.h: Grain::distance, overlaps, transfer_buffer", "include/pf-applications/grain_tracker/representation.h: distance_between_spheres"]}
{"id": "C47", "title": "Automatic control box", "statement": "The automatically generated control box of the postprocessing lies inside the packing, is non-empty, and keeps at least the requested padding plus the largest particle diameter away from the packing boundary; otherwise it is not used.", "quantifier": "all packings, paddings and particle radii", "why_tests_cant": "all real values", "anchors": ["applications/sintering/include/pf-applications/sintering/driver.h: output_result (auto control box)"]}
{"id": "C48", "title": "Predictor", "statement": "The linear predictor extrapolates the last two accepted solutions exactly for fields that are linear in time for any ratio of step sizes; if there is no previous solution to extrapolate from, the current solution is used as the initial guess.", "quantifier": "all fields and step sizes, all restart situations", "why_tests_cant": "all histories", "anchors": ["applications/sintering/include/pf-applications/sintering/driver.h: run (predictor)", "include/pf-applications/time_integration/solution_history.h: SolutionHistory::extrapolate"]}
{"id": "C49", "title": "Optimised power sums equal the definition", "statement": "The specialised power sums used by the free energy equal the sum of the p-th powers of the order parameters.", "quantifier": "all vectors, all lengths, powers 2 and 3", "why_tests_cant": "all lengths", "anchors": ["include/pf-applications/numerics/power_helper.h: PowerHelper"]}
{"id": "C50", "title": "Representative boundary-condition origin", "statement": "The origin picked for clamping is the centre of an existing grain segment and, if growing grains are not preferred, no other segment centre is closer to the reference point.", "quantifier": "all grain configurations", "why_tests_cant": "all configurations", "anchors": ["applications/sintering/include/pf-applications/sintering/boundary_conditions.h: find_center_origin"]}
{"id": "C51", "title": "Preconditioner is never older than its threshold", "statement": "If preconditioner updates are enabled, every linear solve of the damped Newton solver uses a preconditioner that was set up fewer than threshold_newton_iter completed Newton iterations earlier, across any sequence of solves, failures and resets with the same solver object.", "quantifier": "all sequences of solves, all residuals, all linear solver answers, all thresholds > 0", "why_tests_cant": "the age depends on the whole history of the solver object, including failed solves", "anchors": ["include/pf-applications/lac/solvers_nonlinear.h: DampedNewtonSolver::solve, clear"]}
{"id": "C52", "title": "Radii, remote points and moments of inertia do not depend on the partition", "statement": "The radius of a detected particle is the largest distance of the far end of any of its cells on whatever rank, its remote point is the far end of a cell attaining it, and its moments of inertia are the sums over all its cells.", "quantifier": "all meshes, all distributions of cells onto ranks, all particle numberings, dimensions 2 and 3", "why_tests_cant": "all partitions", "anchors": ["include/pf-applications/grain_tracker/distributed_stitching.h: compute_particles_radii, compute_particles_inertia", "include/pf-applications/grain_tracker/motion.h: evaluate_inertia_properties"]}
{"id": "C54", "title": "Grains made from particles", "statement": "When grains are created from the detected particles, every particle becomes exactly one segment of exactly one grain of its order parameter, no grain has other segments, two particles belong to one grain exactly if they are connected through periodic boundaries, the ids are 0..N-1, the consistency exception is never thrown, and measure, maximum and radius of the grain are the sum and greatest values of its particles.", "quantifier": "all particle sets, periodic connections and numbers of order parameters", "why_tests_cant": "ranges over all periodic connection graphs", "anchors": ["include/pf-applications/grain_tracker/tracker.h: Tracker::detect_grains", "include/pf-applications/grain_tracker/periodicity_graph.h", "include/pf-applications/grain_tracker/grain.h: add_segment"]}
{"id": "C55", "title": "Arrhenius coefficients are positive and grow with the temperature", "statement": "Positive material data give positive diffusion and grain boundary mobility coefficients; the grain boundary mobility grows with the temperature for every positive activation energy, a diffusion coefficient grows as long as the thermal energy does not exceed the activation energy.", "quantifier": "all material data, scales and temperatures", "why_tests_cant": "all real parameters", "anchors": ["applications/sintering/include/pf-applications/sintering/mobility.h: ProviderRealistic"]}
{"id": "C57", "title": "Neck between overlapping particles", "statement": "The plane that separates two overlapping particles of the initial cloud passes through the intersection of their spheres, is the same one seen from both particles, and across it the two order parameters sum up to one.", "quantifier": "all pairs of overlapping balls in two and three dimensions, all points", "why_tests_cant": "all radii, distances and positions relative to the origin; the failing cases (neck behind a center, one ball in another, centers in line with the origin) are special configurations", "anchors": ["applications/sintering/include/pf-applications/sintering/initial_values_cloud.h: InitialValuesCloud, get_orientation_point, value_for_particle"]}
{"id": "C58", "title": "A grain of a microstructure fills its contour, with the interface at the distance to the contour", "statement": "For a grain given by closed contours, a point is inside if the ray to its right meets an odd number of edges; for a triangle that is the interior; the result does not depend on the sense or the first point of the contour, and cutting a contour along a chord gives two grains so that every point of the whole, also on the chord, lies in exactly one of them. The distance of a point is the smallest Euclidean distance to a point of the contours. Bounding boxes leave out only grains that do not contribute. The order parameter is the linear profile of that distance of the grain containing the point, in whatever order the grains are listed, and otherwise the largest profile value of all grains.", "quantifier": "all contours with any number of points, all points of the plane, all interface widths and directions, any number of grains and segments", "why_tests_cant": "the plane has infinitely many points, and the special cases (ray through a vertex, point on a chord, point in the extension of the box) have measure zero", "anchors": ["applications/sintering/include/pf-applications/sintering/initial_values_microstructure.h:44-135", "applications/sintering/include/pf-applications/sintering/initial_values_microstructure.h:137-189", "applications/sintering/include/pf-applications/sintering/initial_values_microstructure.h:261-307"]}
{"id": "C53", "title": "Rotations built from axes or from an axis and an angle, and moments of inertia of grains", "statement": "For two orthonormal sets of axes the rotation tensor carries one set to the other and keeps all scalar products, so lengths and angles. The tensor built from a unit axis and an angle rotates every vector about that axis by that angle (Rodrigues' formula), is a rotation (scalar products and orientation are kept) and rotations about one axis add their angles. The inertia tensor assembled from the cells of a grain gives, for every axis, the sum over the cells of the measure times the squared distance to that axis; it is symmetric and never negative, and does not depend on how the cells are spread over the processes.", "quantifier": "all orthonormal axes in two and three dimensions, all unit axes, angles and vectors, all lists of cells, any number of processes", "why_tests_cant": "axes, angles and vectors are continuous, the number of cells and processes is unbounded; a transposed tensor passes every test with a symmetric rotation", "anchors": ["include/pf-applications/grain_tracker/motion.h:29-116", "include/pf-applications/grain_tracker/distributed_stitching.h:395-437"]}
{"id": "C56", "title": "Ellipsoids of grains: what they contain, and the distance computed between two of them", "statement": "An ellipsoid built from center, radii and axes contains exactly the points given by its implicit equation; radii obtained from the moments of inertia of the cells are real numbers given by the second moments along the axes. The distance algorithm for two ellipsoids always returns the distance of some point of the first to some point of the second (so zero only if they overlap), never raises an exception if the centers are apart, never gets larger with more iterations, and with the test of collinearity comes as close as wanted to the smallest distance, up to the tolerance of that test. Enlarging an ellipsoid covers the most remote point, and all outer points of the cells, and is not larger than needed.", "quantifier": "all orthonormal axes and positive radii in two and three dimensions, all centers, tolerances, numbers of iterations, all lists of cells", "why_tests_cant": "convergence for every pair of ellipsoids and every accuracy is a statement about infinitely many inputs and iterations", "anchors": ["include/pf-applications/grain_tracker/ellipsoid.h:45-82", "include/pf-applications/grain_tracker/ellipsoid.h:94-190", "include/pf-applications/grain_tracker/ellipsoid.h:269-295", "include/pf-applications/grain_tracker/ellipsoid.h:322-512", "include/pf-applications/grain_tracker/elliptical_helpers.h:32-85", "include/pf-applications/grain_tracker/tracker.h:1403-1460"]}
{"id": "C59", "title": "Direct neighbours of particles of different order parameters", "statement": "After the search over the cells and the exchange between the processes, two particles of different order parameters that lie on the same cell or on cells sharing a face (or part of one) are recorded as direct neighbours of each other, whichever process owns the cells. Recorded neighbours are always near each other, the relation is symmetric, no empty entries occur, the buffers are read back exactly as written; on a mesh without local refinement the recorded pairs are exactly those in contact.", "quantifier": "all meshes with any local refinement and partition, all fields of particle ids, any number of order parameters and processes", "why_tests_cant": "meshes, partitions and particle fields are unbounded; a pair lost only at the border of two processes or at a hanging face is not seen by a test with one process", "anchors": ["include/pf-applications/grain_tracker/distributed_stitching.h:1022-1148"]}
{"id": "C60", "title": "Wavefront estimate of the distances between particles of one order parameter", "statement": "The growth of the wavefronts always ends without an access out of range. Each distance stored for two particles is the length of a real way between them through cells without particle, on any number of processes. On one process every particle that can be reached from another one gets a distance, and if the cells have at most the two finest levels the smallest distance of each particle is exactly the length of the shortest way to another particle. The tracker reports the stored distance for particles of one order parameter, zero for direct neighbours of different order parameters, the largest number otherwise, and the same value in both directions.", "quantifier": "all meshes with any refinement and partition, all fields of particle ids, any number of particles and processes", "why_tests_cant": "termination and minimality over all ways through all meshes and partitions cannot be enumerated; the collisions lost at process borders depend on the partition", "anchors": ["include/pf-applications/grain_tracker/distributed_stitching.h:527-1020", "include/pf-applications/grain_tracker/tracker.h:1369-1401", "include/pf-applications/grain_tracker/representation.h:319-401"]}
{"id": "C61", "title": "The linearised sintering operator is the derivative of the residual", "statement": "For the isotropic mobility, any number of grains, any mesh, any time weights and advection velocities, every entry of the matrix-free product do_vmult_kernel with a direction is the exact directional derivative of the same entry of do_evaluate_nonlinear_residual, wherever the concentration at the quadrature points lies between 0 and 1.", "quantifier": "all states, directions, meshes, numbers of grains, material data, weights, velocities", "why_tests_cant": "an inexact entry only slows Newton down or breaks it for special states; a finite difference test sees one state and cannot separate a wrong term from the error of the difference", "anchors": ["applications/sintering/include/pf-applications/sintering/operator_sintering_generic.h:200-620", "applications/sintering/include/pf-applications/sintering/operator_sintering_generic.h:620-1078", "applications/sintering/include/pf-applications/sintering/mobility.h"]}
{"id": "C62", "title": "Conservation of the solid volume", "statement": "If the equations of the concentration are solved, the solid volume reported by the program stays constant over every run with any of the BDF schemes, including the start-up steps with lower order, steps of different length and any advection velocities.", "quantifier": "all runs, schemes, step sequences, states, velocities, mobilities on a mesh with shape functions that sum to one", "why_tests_cant": "drift appears only over long runs and depends on the sequence of step lengths and orders", "anchors": ["applications/sintering/include/pf-applications/sintering/operator_sintering_generic.h:200-330", "applications/sintering/include/pf-applications/sintering/operator_sintering_base.h:470-490", "applications/sintering/include/pf-applications/sintering/advection.h", "include/pf-applications/time_integration/solution_history.h"]}
{"id": "C63", "title": "Dissipation of the free energy", "statement": "If the residual vanishes and there is no advection, the derivative of the free energy reported by the program along the discrete rate of the solution is not positive, and is at most minus the integral of the squared rates of the order parameters divided by their mobility.", "quantifier": "all solutions of the discrete equations, meshes, numbers of grains, both mobilities, all weights, order parameters not negative", "why_tests_cant": "thermodynamic consistency relates the residual, the mobility and the energy postprocessor for every state; a run that happens to lose energy does not exclude a state that gains it", "anchors": ["applications/sintering/include/pf-applications/sintering/operator_sintering_generic.h:200-330", "applications/sintering/include/pf-applications/sintering/operator_sintering_base.h:400-420", "applications/sintering/include/pf-applications/sintering/free_energy.h", "applications/sintering/include/pf-applications/sintering/mobility.h"]}
{"id": "C64", "title": "Constrained entries and layout in the product with an operator", "statement": "The product of an operator with a block vector never accesses memory out of range, returns the source exactly as it was although it is zeroed temporarily, copies the constrained entries of the source to the destination and takes every other entry from the cell loop applied to the source with zeros in the constrained entries; for the coupled operator this also holds for supported displacements. Changing between block vectors and interleaved vectors is lossless in both directions.", "quantifier": "all numbers of components, vector sizes, sets of constraints, contents, cell loops and states of the cache", "why_tests_cant": "the source is a const reference that is modified behind the back of the solver; a wrong restore only perturbs Krylov vectors for meshes with certain constraints", "anchors": ["applications/sintering/include/pf-applications/sintering/operator_base.h:230-352", "include/pf-applications/numerics/vector_tools.h:43-93", "applications/sintering/include/pf-applications/sintering/operator_sintering_coupled_monolithic.h:94-172", "applications/structural/include/pf-applications/structural/operator_elastic_linear.h:147-180"]}
{"id": "C65", "title": "Grain growth is a gradient flow of its reported free energy", "statement": "For the grain growth operator the product with the linearised operator is the exact derivative of the residual in every direction; the residual without time derivative, tested with any direction, is the mobility times the derivative of the free energy that the operator reports; a state that solves the time step makes the free energy decrease along the discrete rate by exactly the squared rate over the mobility; the linearised operator is symmetric, and it is positive definite whenever the weight of the time derivative exceeds L(A + sum of eta^2) and B is at least 1.", "quantifier": "all meshes, quadrature points, shape functions, numbers of order parameters, states, directions, old solutions and weights", "why_tests_cant": "a wrong mixed derivative or sign only slows Newton's method or changes kinetics slightly; symmetry and definiteness concern all directions at once", "anchors": ["applications/sintering/include/pf-applications/sintering/operator_grain_growth.h", "include/pf-applications/time_integration/time_integrators.h"]}
{"id": "C66", "title": "Output fields carry the name of the quantity stored in them", "statement": "Whatever fields are requested, the output of the operators never writes beyond its buffer, contains every requested quantity exactly once and no other, and every field carries the name of the quantity that is stored in it.", "quantifier": "all requests, numbers of order parameters and dimensions", "why_tests_cant": "there are 2^k requests for every number of grains, and a wrong name is only noticed by someone who looks at the field", "anchors": ["applications/sintering/include/pf-applications/sintering/operator_base.h", "applications/sintering/include/pf-applications/sintering/operator_sintering_base.h", "applications/sintering/include/pf-applications/sintering/operator_grain_growth.h", "applications/sintering/include/pf-applications/sintering/operator_grand_potential_greenquist.h"]}
{"id": "C67", "title": "Block preconditioner operators are the diagonal blocks of the linearised operator", "statement": "The operators and matrices from which the block preconditioner is built equal the diagonal blocks of the linearised sintering operator: the Cahn-Hilliard block, the Allen-Cahn block, and the matrix of each single order parameter (up to the removal of negligible entries). The label of the approximation selects the approximation it names, the ranges of blocks handed to the preconditioners cover every block exactly once.", "quantifier": "all meshes with linear constraints, states, velocities, numbers of order parameters and cut-offs", "why_tests_cant": "a wrong preconditioner only costs iterations, so no result of a test changes, and the agreement has to hold at every state", "anchors": ["applications/sintering/include/pf-applications/sintering/preconditioners.h", "applications/sintering/include/pf-applications/sintering/operator_sintering_generic.h", "applications/sintering/include/pf-applications/sintering/parameters.h"]}
{"id": "C68", "title": "Linearisation of the grand potential operator", "statement": "Each entry of the product with the linearised grand potential operator (Greenquist) equals the derivative of that entry of the nonlinear residual in the direction of the source vector. Fields in which one phase fills the neighbourhood of every point are stationary, and the susceptibility stays between those of the two phases.", "quantifier": "all meshes, shape functions, quadrature formulas, states, directions, old solutions, time integration weights, parameters and numbers of grains", "why_tests_cant": "an inexact linearisation still converges on most inputs, only more slowly; equality with the derivative has to hold at every state and in every direction", "anchors": ["applications/sintering/include/pf-applications/sintering/operator_grand_potential_greenquist.h", "applications/sintering/include/pf-applications/sintering/mobility.h", "include/pf-applications/time_integration/time_integrators.h"]}
{"id": "C69", "title": "Products and tangents from finite differences of the residual", "statement": "The product computed by the Jacobian-free operator leaves the linearisation point unchanged, is zero for a zero source, and otherwise equals the difference quotient of the residual (with advection: of the residual with the forces of the same perturbed state) for a nonzero step along the source, in whatever order the cell loop calls the two functions handed to it. It is exact for affine residuals, off by at most a constant times the step for smooth ones, and scales with positive factors of the source. The numeric tangent restores the state and sets each entry of the sparsity pattern to the difference quotient of its column. These hold for every operator for which the option can be chosen.", "quantifier": "all residuals made of cell contributions, orders of the cell loop allowed by its contract, linearisation points, sources, block and entry counts, both step length formulas", "why_tests_cant": "the order in which ranges and cells are visited depends on mesh, partition and hardware; a wrong range or a state that is not restored shows only as slower convergence of the linear or nonlinear solver", "anchors": ["include/pf-applications/lac/jacobian_operator.h", "include/pf-applications/lac/residual_wrapper.h", "include/pf-applications/lac/residual_traits.h", "include/pf-applications/lac/evaluation.h", "applications/sintering/include/pf-applications/sintering/residual_wrapper.h", "applications/sintering/include/pf-applications/sintering/operator_grain_growth.h"]}
{"id": "C70", "title": "Assembled matrices against the matrix-free operator", "statement": "In every row of an unconstrained entry the product with the assembled system matrix equals the matrix-free product, for any constraints of the field, and the matrix of one component is the diagonal block of that operator. The result does not depend on the matrix stored before. Rows of fixed entries act as the identity. The inverse diagonal is the inverse of the diagonal. The interleaved numbering agrees with that of the degrees of freedom the constraints of the matrix are made for.", "quantifier": "all linear cell operators, meshes (indices of cells), constraints, numbers of components and entries per cell, numberings and source vectors", "why_tests_cant": "the existing tests compare matrices on one cell or on uniform meshes; a difference in constraints or a lost small entry shows only as slow convergence", "anchors": ["include/pf-applications/matrix_free/tools.h", "applications/sintering/include/pf-applications/sintering/operator_base.h", "applications/sintering/include/pf-applications/sintering/operator_sintering_coupled_monolithic.h", "applications/sintering/include/pf-applications/sintering/preconditioners.h", "applications/sintering/include/pf-applications/sintering/driver.h"]}
{"id": "C71", "title": "Elastic stresses and inelastic strain rates", "statement": "The stress computed from a displacement gradient obeys Hooke's law of an isotropic body, in two dimensions under plane stress or plane strain; it is symmetric and vanishes for infinitesimal rotations. The bilinear form of the operator is symmetric and, for admissible constants, positive except for motions without strain, and the product is exactly the change of the residual. Weak regions keep at least the minimal stiffness. The derivatives of the inelastic strain rate are the derivatives of the strain rate, which is continuous, independent of the order of grains and loses volume at the prescribed rate.", "quantifier": "all material constants with nonzero denominators, displacement gradients, meshes, displacements, concentrations, numbers and values of order parameters and gradients", "why_tests_cant": "the clamped bar is one two-dimensional case with plane strain; the other branches and the inelastic strains are not run by any test", "anchors": ["applications/structural/include/pf-applications/structural/stvenantkirchhoff.h:8-80", "applications/structural/include/pf-applications/structural/tools.h:9-102", "applications/structural/include/pf-applications/structural/operator_elastic_linear.h:130-300", "applications/sintering/include/pf-applications/sintering/operator_sintering_coupled_base.h:94-103", "applications/sintering/include/pf-applications/sintering/inelastic.h:33-310"]}
{"id": "C72", "title": "Pores and the data of their contours", "statement": "The pores found in parallel are the connected regions of void cells: exactly the cells inside the box with all values below the threshold get a number, the numbers are 0..n-1 and two cells share a number exactly if a chain of void cells connects them, whatever the distribution over the ranks. The pores taken out of the contours are those that reach the boundary of the domain, and the data of the contours depend only on the pores and not on the distribution. Cells below the iso level are captured as void.", "quantifier": "all meshes, distributions of cells and DoFs over ranks, numbers of ranks and blocks, values, thresholds and boxes", "why_tests_cant": "no test runs the pore output; the labels depend on the distribution of the mesh and the order of its cells", "anchors": ["applications/sintering/include/pf-applications/sintering/postprocessors.h:1143-1276", "applications/sintering/include/pf-applications/sintering/postprocessors.h:1278-1357", "applications/sintering/include/pf-applications/sintering/postprocessors.h:1364-1524", "include/pf-applications/grain_tracker/distributed_stitching.h:121-181"]}
{"id": "C73", "title": "Coordination number and the file with the contours", "statement": "The average coordination number is the same on every rank and for every distribution of the cells: the mean, over the grains inside the box, of the number of distinct grains that share a cell with the grain. The exchange of the neighbour sets never reads outside of a received vector. The file with the contours is the header followed by the streams of the ranks without gap or overlap, in whatever order the writes arrive, and the numbers of the segments in header and entries agree.", "quantifier": "all numbers of ranks, distributions of cells, sets of grains per cell, boxes, headers, streams and orders of the writes", "why_tests_cant": "the sets are merged over all ranks and the writes of the ranks race; a test runs one distribution and one order", "anchors": ["applications/sintering/include/pf-applications/sintering/postprocessors.h:1950-2069", "applications/sintering/include/pf-applications/sintering/postprocessors.h:307-428", "applications/sintering/include/pf-applications/sintering/postprocessors.h:540-631"]}
{"id": "C74", "title": "Bounding box of the body", "statement": "Each side of the box computed for the shrinkage is at or beyond every support point above the threshold, is attained by a point above the threshold, does not depend on the distribution of the cells over the ranks, and the box is never inverted and never leaves the domain.", "quantifier": "all meshes, values, sample points, sides and distributions of the cells", "why_tests_cant": "which cell is sampled depends on the order and the owner of the cells; a test sees one mesh on one distribution", "anchors": ["applications/sintering/include/pf-applications/sintering/postprocessors.h:1545-1737"]}
{"id": "C75", "title": "Mesh quality and its control", "statement": "The minimum mesh quality is one minus the largest jump of an order parameter on a cell, the same for every distribution of the cells, between 0 and 1, and the same whether or not the quality is also written to a file. The threshold taken from the first step does not ask for a refinement of that mesh. The loop that raises the refinement depth ends with the first depth that reaches the demanded quality.", "quantifier": "all numbers of ranks, distributions, cells, blocks and values, all factors and qualities, all responses of the mesh adaptation", "why_tests_cant": "ghost cells exist only in parallel runs; negative qualities and depths that never suffice need particular meshes", "anchors": ["applications/sintering/include/pf-applications/sintering/postprocessors.h:1759-1892", "applications/sintering/include/pf-applications/sintering/driver.h:2274-2286", "applications/sintering/include/pf-applications/sintering/driver.h:2633-2690"]}
{"id": "C76", "title": "Schedule of mesh adaptation and grain tracking", "statement": "With adaptation by frequency the mesh is adapted exactly once at every multiple of the frequency, before the first try of the next step, whatever steps fail. Whenever the grain data are needed they belong to the present mesh. The tracker runs synchronously with the adaptation if so demanded. A resumed run adapts where the uninterrupted run adapts and has its quality settings set up. A reduced refinement depth is followed by an adaptation. The differences of the step counters never wrap.", "quantifier": "all settings, all sequences of answers of the solver, the tracker, the quality and the iterations, all lengths of the run", "why_tests_cant": "the decisions depend on the history of accepted and failed steps over the whole run and on ten settings", "anchors": ["applications/sintering/include/pf-applications/sintering/driver.h:1932-1989", "applications/sintering/include/pf-applications/sintering/driver.h:2163-2202", "applications/sintering/include/pf-applications/sintering/driver.h:2229-2365", "applications/sintering/include/pf-applications/sintering/driver.h:2633-2690", "applications/sintering/include/pf-applications/sintering/driver.h:473-500"]}
{"id": "C77", "title": "Sparsity patterns of the assembled matrices", "statement": "Every nonzero value that assembling the system matrix or a block matrix writes finds its entry in the sparsity pattern made beforehand, for every number of components, element, quadrature, mesh, constraints and linear operator; the pattern couples two entries of a cell exactly if their shape functions share a point of the quadrature; and the mask made for interleaved components is the right one for the numbering of the system.", "quantifier": "all numbers of components, entries per cell and points, all tables of shape values and derivatives, all meshes given by the objects of their cells, all constraints and all linear operators at the points", "why_tests_cant": "A missing entry shows only for particular elements, quadratures and operators, as an exception in Trilinos; tests run one element with one quadrature.", "anchors": ["include/pf-applications/dofs/dof_tools.h:22-93", "applications/sintering/include/pf-applications/sintering/operator_base.h:418-504", "applications/sintering/include/pf-applications/sintering/operator_base.h:544-617", "applications/sintering/include/pf-applications/sintering/driver.h:175-182", "applications/sintering/include/pf-applications/sintering/driver.h:3205-3224"]}
{"id": "C78", "title": "Preconditioners use the matrices of the last linearisation, on every block", "statement": "For every type of preconditioner that the parameters offer, alone or as a part of the block preconditioner, and for every sequence of clearing, changes of the number of order parameters, updates and products, a product changes every block of the vector and uses only matrices assembled in the last update, with no exception and no access beyond the end of a vector.", "quantifier": "all types for the three parts, all approximations of the second part, all numbers of order parameters and all finite sequences of events of the driver", "why_tests_cant": "The outcome depends on the combination of type, approximation, number of order parameters and its history; tests run a few combinations with a constant number.", "anchors": ["include/pf-applications/lac/preconditioners.h:38-1469", "applications/sintering/include/pf-applications/sintering/preconditioners.h:940-1344", "include/pf-applications/time_integration/time_marching.h:168-207", "applications/sintering/include/pf-applications/sintering/driver.h:1105-1160"]}
{"id": "C79", "title": "Preconditioners made of small inverses are symmetric, positive and independent of the partition", "statement": "The cell-wise block preconditioner takes the same block for a cell whatever process owns its rows; the squares of its weights add up to one for every entry of a cell; for a symmetric matrix it is symmetric; for a symmetric positive definite matrix it is positive definite on the entries of the cells; for a diagonal matrix it is the inverse. The component-wise preconditioner inverts the blocks of the components of every node.", "quantifier": "all matrices, all lists of cells with any number of entries per cell, all vectors, all ownership of rows and all orders of storage", "why_tests_cant": "The properties hold or fail for all vectors and partitions; tests run one partition and see only iteration numbers.", "anchors": ["include/pf-applications/lac/preconditioners.h:216-312", "include/pf-applications/lac/preconditioners.h:316-598"]}
{"id": "C80", "title": "Plane sections show the field, the grains and the domain in the plane", "statement": "For every box-shaped cell that meets the plane the section gets one rectangle with the corners in the order of a square and the value of the finite element function at each corner; the rectangles cover the part of the plane inside the mesh, lie inside it and do not overlap; every rectangle carries the index of its cell; the circle written for a spherical grain is the section of the sphere; the bounding box is that of the whole section on every process.", "quantifier": "all directions, locations, meshes of boxes of any size, fields, coarsening steps, grains and distributions over processes", "why_tests_cant": "The existing test cuts one uniform mesh at one place, without coarsening and without grains; its expected output even holds every rectangle twice.", "anchors": ["applications/sintering/include/pf-applications/sintering/projection.h:86-247", "applications/sintering/include/pf-applications/sintering/projection.h:255-385", "include/pf-applications/grid/bounding_box_filter.h:181-212", "applications/sintering/include/pf-applications/sintering/output.h:149-183"]}
{"id": "C81", "title": "The Courant check sees every fast grain", "statement": "The check before a step passes exactly if in no cell of any process a grain moves further than the diameter of the cell within the step; its answer is the same for every distribution of the cells over batches and processes; a check that passes also passes for every smaller step, some positive step always passes, and the diameters used always belong to the current mesh.", "quantifier": "all meshes, batches with any number of filled lanes, grains, forces, torques, steps, distributions and sequences of mesh adaptations", "why_tests_cant": "The loops end at the first violation and skip lanes and grains; a test of one case cannot show that no violation is missed, nor that the diameters are never those of an older mesh.", "anchors": ["applications/sintering/include/pf-applications/sintering/cfl_checker.h:38-129", "applications/sintering/include/pf-applications/sintering/advection.h:35-160", "applications/sintering/include/pf-applications/sintering/driver.h:1449-1451", "applications/sintering/include/pf-applications/sintering/driver.h:1828-1881", "applications/sintering/include/pf-applications/sintering/driver.h:2220-2228"]}
{"id": "C82", "title": "Forces and velocities in the grain tables", "statement": "The table of the grains lists for every grain with one segment the volume, force, torque and velocity of that grain as of the last evaluation of the forces, never those of another grain and never memory outside of the data, at every output of every run; the same holds for the printed forces of all segments, and the velocities of the coupled operator belong to the center of the own grain.", "quantifier": "all sequences of trackings, evaluations and outputs the driver can produce, all assignments of particles to grains, all contributions of the cells", "why_tests_cant": "the numbering of the segments changes with every tracking, which needs runs where grains vanish, appear or change their order parameter", "anchors": ["applications/sintering/include/pf-applications/sintering/postprocessors_stats.h: output_grains_stats", "include/pf-applications/grain_tracker/tracker.h: build_inverse_mapping, get_grain_segment_index", "applications/sintering/include/pf-applications/sintering/advection.h: nullify_data, grain_data, print_forces", "applications/sintering/include/pf-applications/sintering/driver.h: run_grain_tracker, time loop"]}
{"id": "C83", "title": "Bounding box filter on several processes", "statement": "After the values changed by the filter on the processes have been brought together, all processes have the same field, which is the one a single process would have computed: an entry changed by its owner keeps the owner's value, an entry changed by others gets the value they set, whatever its sign, how many they are and in which order they send.", "quantifier": "all fields, numbers of processes, assignments of entries to processes, sequences of changes", "why_tests_cant": "all numbers of processes and all splittings of the mesh", "anchors": ["include/pf-applications/grid/grid_tools.h: update_selected_ghosts, filter_mesh_withing_bounding_box"]}
{"id": "C84", "title": "Microstructure files", "statement": "A microstructure file in the documented format is read completely: every grain has its contour or segments and its order parameter, the order parameters are numbered without gaps, grains that touch have different order parameters, and a file that is incomplete or inconsistent is refused. The domain is the smallest box that holds all grains with their interfaces, and the largest radius covers every grain.", "quantifier": "all files, numbers of grains, points, orders of the hash map, colourings", "why_tests_cant": "unbounded files of text; the order of hash maps differs between libraries", "anchors": ["applications/sintering/include/pf-applications/sintering/initial_values_microstructure_imaging.h: InitialValuesMicrostructureImaging", "applications/sintering/include/pf-applications/sintering/initial_values_microstructure_voronoi.h: InitialValuesMicrostructureVoronoi", "applications/sintering/include/pf-applications/sintering/initial_values_microstructure.h: get_domain_boundaries, get_r_max"]}
{"id": "C85", "title": "Two-phase model: phase concentrations, driving forces and conservation", "statement": "In the two-phase application the concentrations of the phases are the only pair that reproduces the concentration of the mixture with equal chemical potentials. The gradients used for the flux are the derivatives of these concentrations, the driving forces of the phases are the derivatives of the free energy, and the flux of the concentration goes down the gradient of the chemical potential. For every explicit Runge-Kutta method, every number of steps and every mesh, the phases keep adding up to one and the amount of the substance stays the same. The initial profile is the one at rest, with the prescribed interface energy. The shares of the phases stay between zero and one.", "quantifier": "all constants of the phases with a nonzero denominator, all values and gradients, all meshes given by shape functions that add up to one and a regular mass matrix, all tableaus, all step sizes and all numbers of steps", "why_tests_cant": "The identities hold for real arguments and all directions of differentiation, and conservation for any number of steps of any method; a run of the application only prints two sums at the end for one setup.", "anchors": ["applications/grand_potential/kks.cc:58-127", "applications/grand_potential/kks.cc:135-163", "applications/grand_potential/kks.cc:277-289", "applications/grand_potential/kks.cc:398-452", "applications/grand_potential/kks.cc:499-620"]}
{"id": "C86", "title": "Cells with hanging nodes are exactly the ones reported and weighted", "statement": "The helper for the distribution of the mesh reports exactly those owned cells of which a face or an edge is a part of a face or an edge of a coarser active cell, whatever the order of the cells and the indices of the lines are. Every owned active cell is counted once, either as a cell with or as one without hanging nodes. The weight of a reported cell is the rounded product of the factor of the parameter file with the weight of other cells; a factor of at least one never makes it smaller.", "quantifier": "all forests of octrees over a box of coarse cells, all sets of owned cells, all injective numberings of the lines (level differences above one: all numberings where the parts of a line come after it), all factors", "why_tests_cant": "Edge-only hanging nodes arise in three dimensions only for particular refinement patterns and numberings; a wrong entry of the table of children or a missed cell only changes the load balance, which no test looks at.", "anchors": ["include/pf-applications/grid/constraint_helper.h:37-187", "applications/sintering/include/pf-applications/sintering/driver.h:598-602", "applications/sintering/include/pf-applications/sintering/driver.h:744-772"]}
{"id": "C87", "title": "Cahn-Hilliard applications keep the substance, lower the energy and stop at the end time", "statement": "The functions of the potential are the derivatives of the double well; the operator of the linearised problem is the derivative of the residual at the stored state. Every solution of an implicit step contains the substance of the old one and has a lower energy for every time step the program can choose, so a run keeps the substance and never raises the energy whatever steps fail; the explicit scheme keeps the substance too. Initial concentrations are in [0,1]. Each run ends after finitely many steps, with time steps within the bounds, at the end time, and the recorded time is the one simulated.", "quantifier": "all meshes given by points, nonnegative weights and shape functions that sum to one, all old solutions, all sequences of outcomes of the nonlinear solver, all bounds of the time step", "why_tests_cant": "The applications have no tests; energy and mass of a few runs say nothing about other meshes and step sizes, and a recorded time that is slightly ahead of the simulated one looks plausible in every output.", "anchors": ["applications/cahn_hilliard/cahn_hilliard_impl.cc:53-115", "applications/cahn_hilliard/cahn_hilliard_impl.cc:199-316", "applications/cahn_hilliard/cahn_hilliard_impl.cc:343-375", "applications/cahn_hilliard/cahn_hilliard_impl.cc:490-504", "applications/cahn_hilliard/cahn_hilliard_impl.cc:592-717", "applications/cahn_hilliard/cahn_hilliard.cc:58-107", "applications/cahn_hilliard/cahn_hilliard.cc:178-307"]}
{"id": "C88", "title": "Allen-Cahn applications solve their equation and lower the energy", "statement": "The functions of the potential are the derivatives of the double well with the phases -1 and 1. The operators of the linearised problems are the derivatives of the residuals, symmetric and positive, as the method of conjugate gradients requires. A solution of an implicit step has a lower energy. Initial values lie between the states of the phases and the region without the phase stays without it; the explicit programs take a uniform state to the one of the step of Euler.", "quantifier": "all meshes given by points, nonnegative weights and shape functions, all old solutions, linearisation points, directions, all time steps within the stated bounds, all numbers of steps", "why_tests_cant": "The programs have no tests; a residual with a wrong factor still converges and produces a plausible picture, and an operator that is not linear may still let the iteration converge for small time steps.", "anchors": ["applications/allen_cahn/allen_cahn.cc:45-257", "applications/allen_cahn/allen_cahn_impl.cc:52-297", "applications/allen_cahn/allen_cahn_impl_two_components.cc:51-319", "applications/allen_cahn/allen_cahn_two_components_1.cc:45-271", "applications/allen_cahn/allen_cahn_two_components_2.cc:45-330"]}
{"id": "C89", "title": "Wrappers of linear solvers return solutions and restore their control", "statement": "A wrapper of a linear solver returns a number only together with a solution, the number is that of the steps done, and the limit of steps is the same before and after. When Bicgstab does not converge the result is that of GMRES started from the original vector. Exactly the labels of the parameter file lead to a wrapper. The relaxation applies the stated number of sweeps, the direct solver inverts the block operator. SNES never uses a preconditioner older than its threshold and reports success when PETSc converges.", "quantifier": "all behaviours of the wrapped solvers, all controls, vectors and runs of solves; all labels; all linear operators and preconditioners; all numbers and sizes of blocks; all sequences of linear iterations", "why_tests_cant": "The fallback runs only when Bicgstab fails, which the tests do not provoke; SNES is not compiled in the tests; a wrong limit left in the control shows only in a later solve.", "anchors": ["include/pf-applications/lac/solvers_linear.h:56-473", "include/pf-applications/lac/solvers_nonlinear_snes.h:222-405", "include/pf-applications/lac/solvers_nonlinear.h:455-500", "applications/sintering/include/pf-applications/sintering/parameters.h:1003-1011", "include/pf-applications/time_integration/time_marching.h:232-320"]}
{"id": "C90", "title": "Command line of the sintering applications", "statement": "Options of the documented form override the parameter file and each other in order; malformed options are rejected; the parts of a name between dots are the subsections and the entry. A problem is started only for a known mode with all of its arguments, with options read right behind them, a positive number of particles and no more order parameters than compiled; without arguments the help is printed.", "quantifier": "all argument lists, names, values and files, all results of atoi, atof and the file system, all dimensions and compiled numbers of grains", "why_tests_cant": "Tests call the classes behind the command line directly; a misread option changes the parameters of a run without any message.", "anchors": ["include/pf-applications/base/input.h:30-80", "applications/sintering/include/pf-applications/sintering/parameters.h:319-342", "applications/sintering/include/pf-applications/sintering/runner.h:62-340", "applications/sintering/include/pf-applications/sintering/initial_values_debug.h"]}
{"id": "C91", "title": "Operations compiled for a number of grains run on data of that number", "statement": "The macros that turn a number of grains or components into a template parameter run the operation exactly for the compiled range, with the number of grains and components of the data; every other number ends in an exception that names the range. The blocks of the preconditioner exist for the same data as the operator. Bit masks contain exactly the bits they are made of, and an evaluation of the free energy for a mask has all sums its functions need.", "quantifier": "all compiled maxima, numbers of grains and components, relations between them, lists of bits and of orders", "why_tests_cant": "Tests are compiled for two grains and look at a handful of numbers; a wrong case in the switch only shows for one number of grains.", "anchors": ["applications/sintering/include/pf-applications/sintering/instantiation.h:27-151", "include/pf-applications/base/mask.h:20-111", "applications/sintering/include/pf-applications/sintering/free_energy.h:33-184", "applications/sintering/include/pf-applications/sintering/operator_sintering_generic.h:622-632", "applications/sintering/include/pf-applications/sintering/operator_grain_growth.h:492-515", "applications/sintering/include/pf-applications/sintering/preconditioners.h:73-83"]}
{"id": "C92", "title": "The listing of grains does not depend on their numbers", "statement": "The listing used to compare runs shows every grain once with each of its segments once, grains and segments in the lexicographic order of their centers; the comparison is a strict weak ordering; if no two segments have the same center the listing is the same for every numbering of the grains and every order of the segments. The particle output has one particle for every segment.", "quantifier": "all dimensions, maps of grains, numberings, orders of segments, results of the sorting, numbers of processes", "why_tests_cant": "The expected outputs of tests come from few grains on few processes; they cannot show that no numbering and no result of the unstable sorting changes the listing.", "anchors": ["include/pf-applications/grain_tracker/output.h:29-160", "include/pf-applications/grain_tracker/output.h:200-252", "include/pf-applications/grain_tracker/tracking.h:246-260", "include/pf-applications/grain_tracker/segment.h:102-115", "include/pf-applications/grain_tracker/grain.h:38-62"]}
{"id": "C93", "title": "Surfaces of grain boundaries and their areas", "statement": "The mesh of grain boundaries has exactly the facets of the contours of the grains where the grain times the sum of all others is above the limit, and the tests made before the extraction lose none. The area of the boundary between two grains that fill the cells is the area of the contour between them, a single grain has none, and areas do not depend on the distribution of cells to processes. Every facet of the contour output has the grain of its particle and its order parameter.", "quantifier": "all cells, nodal values, levels, limits, numbers of grains, results of the marching cube algorithm, boxes and distributions of cells", "why_tests_cant": "The expected areas of tests are recorded numbers for a few particles with linear elements on a few processes.", "anchors": ["applications/sintering/include/pf-applications/sintering/postprocessors.h:114-305", "applications/sintering/include/pf-applications/sintering/postprocessors.h:430-537", "applications/sintering/include/pf-applications/sintering/postprocessors.h:857-952"]}
{"id": "C94", "title": "Divergences of the fluxes of the four diffusion mechanisms", "statement": "The four fields div_vol, div_vap, div_surf and div_gb that are written with the results sum up to the discrete rate of the concentration of a converged step, the integral of each of them vanishes, and each mechanism lowers the free energy.", "quantifier": "All meshes, quadrature formulas, numbers of grains, dimensions, mobilities (scalar and tensorial), states and weights of the time scheme; exact solution of the mass matrix", "why_tests_cant": "The code computes the mobility twice, once for the residual and once by mechanism for the output; a test compares stored output of one run, it does not compare the two computations for every state.", "anchors": ["applications/sintering/include/pf-applications/sintering/operator_postproc.h:86-200", "applications/sintering/include/pf-applications/sintering/mobility.h:311-375", "applications/sintering/include/pf-applications/sintering/mobility.h:583-664", "applications/sintering/include/pf-applications/sintering/mobility.h:756-807", "applications/sintering/include/pf-applications/sintering/preconditioners.h:901-937", "applications/sintering/include/pf-applications/sintering/driver.h:1186-1224", "applications/sintering/include/pf-applications/sintering/driver.h:2464-2483", "include/pf-applications/base/tensor.h:176-186"]}
{"id": "C95", "title": "Restraints on the displacements", "statement": "The degrees of freedom that the clamping of a section restrains are those in the plane of the vertex closest to the requested point, for the requested directions only, and together the restraints leave no rigid body motion.", "quantifier": "All meshes, distributions over processes, dimensions, masks of directions, points and contents of uninitialised memory", "why_tests_cant": "A test uses one mesh and one mask; whether a motion remains is a statement about all translations and rotations, and the coincidence of a plane with the middle of a larger face or the contents of an uninitialised array appear only on other meshes or machines.", "anchors": ["applications/sintering/include/pf-applications/sintering/boundary_conditions.h:32-140", "applications/sintering/include/pf-applications/sintering/boundary_conditions.h:142-250", "applications/sintering/include/pf-applications/sintering/boundary_conditions.h:252-393", "applications/sintering/include/pf-applications/sintering/boundary_conditions.h:442-478", "applications/sintering/include/pf-applications/sintering/driver.h:1734-1826"]}
{"id": "C96", "title": "Restart points", "statement": "A restart point that was written completely gives back every saved field in every block of the current and the old solutions, for both kinds of files, also if the restarted run has other options, and at whatever moment the program is ended the last completed restart point is left intact.", "quantifier": "All orders of the time scheme, numbers of blocks, partitions, numbers of processes, options of both runs, limits on the number of restart points and moments at which the program ends", "why_tests_cant": "Tests restart one run with unchanged options and on one process; the moment of a kill and the combinations of options and partitions cannot be enumerated.", "anchors": ["applications/sintering/include/pf-applications/sintering/driver.h:288-457", "applications/sintering/include/pf-applications/sintering/driver.h:2536-2620", "applications/sintering/include/pf-applications/sintering/driver.h:954-959", "include/pf-applications/time_integration/solution_history.h:60-158", "include/pf-applications/grid/grid_tools.h:696-719", "include/pf-applications/base/solution_serialization.h:50-82"]}
{"id": "C97", "title": "What the files with results contain", "statement": "The file of the domain and the files of the sections contain exactly the requested blocks of the solution, each under its name, displacements are marked as one vector and everything else as scalar, and every control box has its own name.", "quantifier": "All numbers of grains and blocks, requests, dimensions, solutions, lists of names and control boxes", "why_tests_cant": "Tests compare scalar tables; the content of files for visualisation is not compared, and names and runs of names range over all lists.", "anchors": ["applications/sintering/include/pf-applications/sintering/driver.h:2788-2880", "applications/sintering/include/pf-applications/sintering/driver.h:2882-2990", "applications/sintering/include/pf-applications/sintering/output.h:162-187", "applications/sintering/include/pf-applications/sintering/output.h:300-334", "include/pf-applications/numerics/output.h:30-105", "include/pf-applications/numerics/data_out.h:20-62"]}
{"id": "C98", "title": "Timed sections", "statement": "The names of timed sections, built from the chain of callers, never get mixed up: for every program of nested blocks, exceptions and handlers no assertion of the sections fails, no name or active section is left behind, recursive calls get different sections, and the total of a section is the time of the work done inside it, each piece counted once. Chains of names without colons have different sections; names with colons need not. The stages of building a problem are not timed since their scopes are temporaries. The collection of timers prints exactly the live enabled timers, once each, in the order of construction.", "quantifier": "all programs of nested scopes with work, exceptions and handlers; all names; all states for the restoration; all sequences of constructions and destructions of timers", "why_tests_cant": "the ways exceptions leave nested scopes and the chains of callers are unbounded, and timing is switched off in the usual builds and tests", "anchors": ["include/pf-applications/base/scoped_name.h", "src/base/timer.cc", "include/pf-applications/base/timer.h", "applications/sintering/include/pf-applications/sintering/driver.h", "include/pf-applications/grain_tracker/tracker.h"]}
{"id": "C99", "title": "Coarsened copies of the mesh", "statement": "Coarsening a copy of the mesh n times cuts its refinement trees n levels below the finest level: coarser cells keep their values, finer ones give way to their ancestor, no coarse cell is lost, graded meshes stay graded, and with linear elements folded cells have the values of the mesh at their vertices (other values, hence small pores or grains, may be lost). The reduction of the mesh per block in the estimate of the mesh overhead ends whichever families deal.II keeps, the overhead printed is the exact whole percentage and never negative, and the numbers of grains per cell are counted completely over all ranks.", "quantifier": "all forests of refinement trees of any branching and depth, all numbers of steps, all adjacency relations, all values and restrictions; all choices of the families folded; all numbers of cells; all ranks and counters", "why_tests_cant": "the meshes, the numbers of steps, the decisions of the mesh library and the distributions over ranks are unbounded; the failures need meshes of more than four thousand million cells or states without grains", "anchors": ["include/pf-applications/grid/grid_tools.h", "applications/sintering/include/pf-applications/sintering/postprocessors.h", "applications/sintering/include/pf-applications/sintering/projection.h", "applications/sintering/include/pf-applications/sintering/driver.h"]}
{"id": "C100", "title": "Named options", "statement": "Every word that the parameter file and the command line may give for a named option is understood by the code that uses it, different words mean different things, and the value that counts is the last one given or the default; a program that starts works with the element and the number of quadrature points it was compiled for.", "quantifier": "All parameter files and command lines, all orders of entries, all options with named values and all builds.", "why_tests_cant": "A test runs a few files; most combinations of words, especially of the preconditioners, are never tried.", "anchors": ["applications/sintering/include/pf-applications/sintering/parameters.h", "applications/sintering/include/pf-applications/sintering/preconditioner_parameters.h", "include/pf-applications/time_integration/time_integrator_parameters.h", "applications/sintering/include/pf-applications/sintering/driver.h", "applications/sintering/include/pf-applications/sintering/preconditioners.h", "include/pf-applications/lac/preconditioners.h", "src/base/timer.cc", "include/pf-applications/time_integration/time_schemes.h", "include/pf-applications/time_integration/time_marching.h", "applications/sintering/include/pf-applications/sintering/initial_values.h"]}
{"id": "C101", "title": "Taking packed vectors apart and putting them together", "statement": "A packed vector holds two values and one value per grain at every point. split_up_fast takes it apart into the first two values (or one vector each) and the grain values of all points, whatever the targets held before; merge_fast puts the parts together; each undoes the other. If the length of the packed vector is not a whole number of points, all four quick functions go out of range. The slow versions through the cells do the same for every numbering of the unknowns that gives no number twice: component c of the second part is component c + 2 of the packed vector, entries not belonging to the cells are kept, and putting together gives back the packed vector. Both versions agree if all vectors are numbered point by point; with another numbering they do not. check_identity tells whether two vectors have equal length and equal entries.", "quantifier": "for all numbers of grains, points and cells, all vectors, all elements whose index maps undo each other, and all numberings without repetition", "why_tests_cant": "the functions are not called by any test; a test sees one element, one mesh and one numbering of the unknowns, while the loops advance several running indices for every size", "anchors": ["include/pf-applications/numerics/vector_tools.h"]}
{"id": "C102", "title": "Time stepping with ARKode", "statement": "The ARKode variant of the time stepping finds exactly the stationary components, in ascending order, and throws if the kind of an equation is not known. The right hand side it gives to ARKode is minus the residual of the whole vector at the time-dependent components, and the vector ARKode passes in is unchanged. After a step the time-dependent blocks are those ARKode returned, every stationary block is minus the mass solution of the residual at the end time of the new time-dependent blocks, all blocks are in their places, and the time has advanced by the step size. ARKode is restarted exactly at the first step and after clear(). It should also hold that stationary values agree with the time-dependent ones within and after a step and that constraints hold for them: this is false, they are kept at their old values within a step, stationary equations that use each other are not satisfied after it, and a value fixed by the constraints comes out with the opposite sign.", "quantifier": "for all numbers and orders of components, all vectors, residuals and step sizes, all solvers ARKode may be (any function calling the right hand side as it likes), and all sequences of steps and clears", "why_tests_cant": "the only test has one time-dependent and one stationary equation and one sequence of steps; the insertion and removal of blocks depends on all positions of the stationary components", "anchors": ["include/pf-applications/time_integration/time_marching.h", "include/pf-applications/lac/dynamic_block_vector.h", "tests/time_marching_arkode.cc"]}
{"id": "C103", "title": "Block vectors with shared blocks", "statement": "The arithmetic of block vectors is that of the one long vector made of their blocks: norms, mean value, dot product, the test for zero, and every update (add, sadd, scale, equ, +=, -=, *=, /=, add_and_dot, assignment of a number) give entry by entry what the formulas say and change no block the vector does not hold, provided no operand holds an updated block at a later position. A copy has the same entries in blocks of its own, so copy and original do not see each other's changes; a view shares its blocks and writes through it reach the original. The size, single entries and owned index ranges agree with the blocks after every copy, assignment, change of the number of blocks, insertion and removal, and after moving a block if all blocks have one size. It should also hold that they always agree and that an assignment changes no other vector: this is false for views (size 0, no entry can be addressed), after moving blocks of different sizes, after a block got a new size from outside or through a view, and where blocks are shared.", "quantifier": "for all heaps of blocks, all block vectors (any sharing of blocks between vectors), all numbers and sizes of blocks and all entries", "why_tests_cant": "the existing test inserts, removes and moves blocks of one vector and checks their places, not the entries, and no other vector shares its blocks; which blocks two vectors have in common and at which positions cannot be enumerated", "anchors": ["include/pf-applications/lac/dynamic_block_vector.h", "tests/dbv_block_operations.cc"]}
{"id": "C104", "title": "Moving whole grains to other order parameters (remap_old)", "statement": "remap_old moves every grain whose order parameter has changed exactly once: the moves taken over temporary storage each close a circle of moves, and a grain is brought to an order parameter only after the grains there that are noticed as overlapping have been taken away. At every degree of freedom reached by the zones of the grains (cells closer than radius plus half of the distance to the nearest neighbour) at which the changed grains reaching it have different old and different new order parameters and are noticed, all values move at the same time, left order parameters become zero, others keep their values, and grains that are gone have been set to zero before; the returned number is the number of changed grains. Two grains whose zones have a cell in common are noticed if their distance is at most that of their spheres. It should also hold that every pair of grains that share a degree of freedom is noticed: this is false for zones in neighbouring cells, and for other representations than spheres even for a common cell; then the values of one grain end up in the order parameter of the other.", "quantifier": "for all grains, segments, distances, cells, solutions, numbers of blocks and all orders in which the graph lists its edges", "why_tests_cant": "no test uses the old remapping; which grains touch which cells and in which circles they change places cannot be enumerated", "anchors": ["include/pf-applications/grain_tracker/tracker.h", "include/pf-applications/grain_tracker/grain.h", "include/pf-applications/grain_tracker/remap_graph.h", "include/pf-applications/grain_tracker/segment.h"]}
{"id": "C105", "title": "Properties of a packing of spheres", "statement": "packing_properties.py: the volume of a spherical cap is the integral of the cross sections; the part of a sphere counted for a slice is the volume of the sphere between the two planes whenever the sphere is not in one of four special positions (center on a plane; sphere touching one plane from inside and reaching or passing the other); if no particle is in such a position, each density is the volume in the slice by the volume of the slice and all densities together account for the volume of all spheres. The limits enclose all particles and are touched by some. The coordination numbers count the contacts of each particle, their average is twice the number of contacts by the number of particles; all radii are within the printed interval. It should also hold that the volume in a slice is right for every packing, that the printed average radius is the average, and that the densities are plotted at the midpoints of the slices: these are false (in the special positions nothing is counted, and the outermost particles always are in one if they are thicker than a slice; the middle between smallest and largest radius is printed; the positions are right exactly for packings of size 1).", "quantifier": "for all packings, radii, slices, numbers of divisions and contacts", "why_tests_cant": "the scripts have no tests; the special positions form a set of measure zero for random particles but always occur for the outermost ones, since the limits are computed from them", "anchors": ["applications/sintering/scripts/packing_properties.py"]}
{"id": "C106", "title": "Repairing the connectivity of a packing", "statement": "check_particle_connectivity.py treats two spheres as in contact exactly when their distance is at most the sum of their radii plus the tolerance. A connected packing is returned unchanged. Otherwise one pass over the bridges of a spanning tree of the components connects all particles, no radius shrinks, and at most n_components - 1 particles are enlarged (twice as many with the split strategy). Gaps between components are positive, so no edge is lost as a zero of the sparse matrix. Refuted: the edge between two components is the pair with the smallest gap; the number of enlarged particles is the smallest possible.", "quantifier": "for all radii, symmetric distances, tolerances, strategies, numbers of passes and all functions that return correct components and a spanning tree", "why_tests_cant": "A test repairs a few packings; it cannot show that the search radius never misses a contact, that later bridges never undo earlier ones, or that one pass suffices for any number of components.", "anchors": ["applications/sintering/scripts/check_particle_connectivity.py"]}
{"id": "C107", "title": "Contacts of a packing found with two ball trees", "statement": "For two or more spheres ends_gap of contacts.py returns each pair i < j of overlapping spheres exactly once, in lexicographic order, together with the signed distance of the surfaces. Splitting the spheres into a small and a big group loses no contact, the segmented arrays are merged and reordered correctly, the assertion on the even number of directed contacts holds, and the preallocated result arrays are filled completely. Refuted: it works for a single sphere, which the assertion at the beginning admits.", "quantifier": "for all numbers of spheres, radii, symmetric distances, all orders argsort may choose among equal radii and all orders in which the trees report neighbours", "why_tests_cant": "Tests see one order of the neighbours per library version and a few packings; they cannot cover all sizes of the segments, all permutations and all ways of splitting.", "anchors": ["applications/sintering/scripts/contacts.py"]}
{"id": "C108", "title": "Moving, scaling, rotating and cutting packings", "statement": "transform_packing.py keeps all spheres in order and, with a positive scale, multiplies all distances and radii by it, so that contacts are kept; its rotation is proper (lengths, angles and orientation are kept), turns about x, then y, then z, counter-clockwise; the printed dimensions are the tight box. extract_subpacking.py returns exactly the spheres strictly inside the given limits, in order and scaled. Refuted: the option centrify centres the packing (half of the size is subtracted instead of the middle, so the centre lands at the former lower limit); a scale of zero is applied.", "quantifier": "for all packings, offsets, scales, Euler angles and limits", "why_tests_cant": "A test uses a few packings, typically starting at zero, for which the centring is right; it cannot cover all angles and offsets.", "anchors": ["applications/sintering/scripts/transform_packing.py", "applications/sintering/scripts/extract_subpacking.py"]}
{"id": "C109", "title": "Tables of quantities of single grains", "statement": "track_grain_data.py writes for every grain and quantity of the first statistics file a column with the values of that grain. With replacement of nans every row holds the last number up to it, rows before the first number hold that number, and only columns without any number stay nan. A grain missing in a later file ends the script. If every folder has files, each table is saved under the name of its folder. Refuted: this also holds when some folder has no files (names are shifted); every entry of the table has been read (with fewer files than rows of the log entries stay uninitialised).", "quantifier": "for all numbers of folders, files and rows, and all patterns of missing values", "why_tests_cant": "The patterns of nans and the mismatch between logs and files are unbounded; uninitialised memory often happens to be zero in a test.", "anchors": ["applications/sintering/scripts/track_grain_data.py"]}
{"id": "C110", "title": "Short labels, escaping and the progress bar of the scripts", "statement": "In library.py, when cutting the longest common beginning and the longest common end of two or more file names leaves no empty label, generate_short_labels returns these labels, each file name is its label between the common parts, and different files have different labels. tex_escape is injective, leaves text without special characters alone, puts a backslash before each of & % $ # _ and removes ~ < >. The progress bar always has the requested length, its arrow never shrinks and fills the bar at the end. Refuted: labels are always distinct (names differing in the last character get equal labels), never empty, and always computed (an IndexError is possible).", "quantifier": "for all lists of file names, all texts, all steps, totals and bar lengths", "why_tests_cant": "Tests use a handful of file names; file names without a common end or where one name is the end of the others are easily forgotten, and injectivity cannot be tested.", "anchors": ["applications/sintering/scripts/library.py"]}
{"id": "C111", "title": "Batch runs: locks, folders and options", "statement": "In run_batch.py, with locks respected, no cleaning and no debug mode, exactly the first job of every folder that was not locked is submitted, no two submitted jobs share a folder, no file is removed and all folders are locked afterwards; with a single mobility, different cases and no locks all jobs are submitted. Unknown physics ends the script and keeps what was submitted. An option comes from the case, else from the command line, else from the file, and is missing only if neither command line nor file has it. Refuted: all combinations of physics and mobility get submitted (jobs that differ in the mobility only share their folder, the later ones are ignored); a folder in use is protected (with CleanOutputFolder the lock just written is removed, so that all jobs of a folder are submitted and clean it); a debug run has no effect on later runs (it locks the folders); the command line wins over the case; the mail address of the file is used and is optional.", "quantifier": "for all lists of cases, dimensions, physics and mobilities, all settings, all initial locks and files", "why_tests_cant": "The script submits real cluster jobs and there are no tests for it; which jobs are dropped depends on combinations of settings, lists and existing lock files.", "anchors": ["applications/sintering/batch_runs/run_batch.py"]}
{"id": "C112", "title": "Submitting jobs under a limit", "statement": "jobs_submitter.py submits every job at most once and in order; each pass submits at most limit minus active jobs, and exactly that many unless it is the last one; all jobs are submitted after some number of passes if and only if the free places of these passes add up to the number of jobs; if there is never a free place the loop does not end and submits nothing. For partition names of letters, digits and underscores the active jobs of the partition are counted, or all of them for an empty name. Refuted: the limit is respected for every partition name (with a hyphen in it no job is counted).", "quantifier": "for all job lists, limits, sequences of active job numbers, queues and partition names", "why_tests_cant": "The queue of the cluster changes at run time and cannot be replayed; the limit has to hold for every sequence of queue states.", "anchors": ["applications/sintering/batch_runs/jobs_submitter.py"]}
{"id": "C113", "title": "Shrinkage tables", "statement": "In postproc_shrinkage.py the length in a direction starts as the distance of the outermost particles of the first row and changes in each later row by the time step times the difference of their velocities, a nan counting as 0. If all columns start with a nonzero number, the saved table has the right header, for each quantity the rows within the limits and the change relative to the first row; this shrinkage is 0 exactly where the value equals the first one, 1 exactly where it vanishes, and for a positive first value nonnegative exactly where it has not grown. Refuted: the columns match the header if a quantity is zero throughout (later quantities are saved under the names of earlier ones); a table is saved if a quantity starts with a zero (exception); plots have the label of their quantity.", "quantifier": "for all tables, limits, particles and sets of quantities", "why_tests_cant": "There are no tests for the script; it works on the usual tables and fails only for columns with zeros.", "anchors": ["applications/sintering/scripts/postproc_shrinkage.py"]}
{"id": "C114", "title": "Periodic connections do not depend on the partition of the mesh", "statement": "In detect_grains, for every distribution of the cells over the ranks whose ghost layers contain the periodic neighbors, the connections collected from all ranks are exactly the pairs of particles that have cells which are periodic neighbors, including neighbors across a refined face; decoding the gathered data never reads past its end; every rank sends each pair once, in increasing order. Consequently two particles are put in one group exactly if a chain of periodic cells connects them, and a particle is in no group exactly if none of its cells has a periodic neighbor that belongs to a particle, independently of the partition.", "quantifier": "for all meshes, partitions, numbers of ranks, periodic neighbor relations and particle numbers", "why_tests_cant": "Tests run with one or a few ranks on a few periodic meshes; the partition and the refinement at the periodic boundary vary without bound.", "anchors": ["include/pf-applications/grain_tracker/tracker.h", "include/pf-applications/grain_tracker/periodicity_graph.h"]}
{"id": "C115", "title": "Integrals over the domain in the table of results", "statement": "For every set of labels the operator knows, every set of control boxes and every distribution of cells over processes and lanes, a row of the table has the nine fixed columns and one column for each quantity and box, all names distinct; the column holds the integral of the named quantity over all cells, each counted once, weighted with the filter of the box; gb_area is half of the squared sum of the order parameters minus the sum of their squares, and free_energy is the sum of bulk_energy and interface_energy. A label the operator does not know ends the run. Refuted: the default labels can be used with every operator.", "quantifier": "for all operators, settings, lists of labels, control boxes, numbers of grains, cells, lanes and processes", "why_tests_cant": "Tests print the integrals of a few runs; distinctness of names for any number of boxes and order parameters and the exact sum over any partition into lanes and processes need a proof.", "anchors": ["applications/sintering/include/pf-applications/sintering/operator_sintering_base.h:395-553", "applications/sintering/include/pf-applications/sintering/operator_grain_growth.h:677-790", "applications/sintering/include/pf-applications/sintering/operator_grand_potential_greenquist.h:1171-1262", "applications/sintering/include/pf-applications/sintering/operator_base.h:842-933", "applications/sintering/include/pf-applications/sintering/driver.h:2992-3066"]}
{"id": "C116", "title": "Product of the coupled operator with an assembled matrix", "statement": "With an assembled matrix the product of the coupled operator treats the displacement entries of supported nodes and of nodes without material like constrained entries: the matrix sees zeros there, the destination has the entries of the source, all other entries are those of the matrix, and the source keeps its entries.", "quantifier": "For all matrices (arbitrary functions on vectors), numbers of components, sizes, lists of supported nodes and of nodes without material (also overlapping), sources, destinations on entry and values left over from earlier products; for plain and for block vectors.", "why_tests_cant": "The hooks for plain and for block vectors nest in the matrix branch and share one member, so the effect depends on the combination of node lists; tests run few small cases without nodes without material.", "anchors": ["applications/sintering/include/pf-applications/sintering/operator_sintering_coupled_monolithic.h:94-172", "applications/sintering/include/pf-applications/sintering/operator_sintering_coupled_monolithic.h:326-393", "applications/sintering/include/pf-applications/sintering/operator_base.h:230-353"]}
{"id": "C117", "title": "Mixed second derivatives of the grain growth energy times a vector", "statement": "The function that multiplies with the mixed second derivatives of the free energy of grain growth adds to the entry of each grain L times the sum over all other grains of the second derivative times the value. Refuted: the sum starts with a variable without a value and leaves out the first grain.", "quantifier": "For all numbers of grains, order parameters, values, results on entry, mobilities L and contents of the uninitialised variable.", "why_tests_cant": "What an uninitialised variable holds differs between compilers and runs; a test may see the right value by chance.", "anchors": ["applications/sintering/include/pf-applications/sintering/operator_grain_growth.h:242-262", "applications/sintering/include/pf-applications/sintering/operator_grain_growth.h:174-179", "applications/sintering/include/pf-applications/sintering/operator_grand_potential_greenquist.h:578-592"]}
{"id": "C118", "title": "Report on the residual in a nonlinear solve", "statement": "For every operator the groups ch, mu, ac and mec have distinct names and cover every block of the residual once; in each line of a solve the norms of the groups are those of their blocks and their squares add up to the square of the norm of the residual; the ratios refer to the first line of the same solve whatever was remembered before; the linear iterations of the lines add up to those of the solve; the report does not change the decision of the damped solver. Refuted for operators with additional components, which are in no group, and for the solver of PETSc, where the report reads a block of an empty vector.", "quantifier": "For all numbers of components, offsets 0 to 2, dimensions, residuals, numbers of linear iterations, lengths of the solve and contents of the memory of the function.", "why_tests_cant": "Tests compare the printed text of a few runs with one operator and one solver; that the groups are a partition for every number of components and that nothing leaks from one solve to the next needs a proof.", "anchors": ["applications/sintering/include/pf-applications/sintering/driver.h:1287-1313", "include/pf-applications/time_integration/time_marching.h:243-354", "include/pf-applications/lac/solvers_nonlinear.h:365-388", "include/pf-applications/lac/solvers_nonlinear_snes.h:374-393"]}
{"id": "C119", "title": "The table of results during a run", "statement": "Every output adds one line to the table of its label, in the order of the outputs and numbered one by one; every line has the distinct columns of the header, which is written once at the start; shrinkage, mesh quality, areas and coordination numbers stand under their names; and a run continued from a restart point yields the table of the uninterrupted run.", "quantifier": "All settings, operators, control boxes, quantities, sequences of outputs with any labels, contents of an old file and restart points", "why_tests_cant": "Tests print single tables; which lines survive and whether names match depends on the whole sequence of outputs, labels and restarts.", "anchors": ["applications/sintering/src/postprocessors.cc:18-52", "applications/sintering/include/pf-applications/sintering/driver.h:2733-2755", "applications/sintering/include/pf-applications/sintering/driver.h:2992-3201", "applications/sintering/include/pf-applications/sintering/driver.h:1906-1923", "applications/sintering/include/pf-applications/sintering/output.h:60-126"]}
{"id": "C120", "title": "Density analysis of packings", "statement": "The analysis saves for every folder one row per table of grains under the name of that folder, with the values read and the solid volume over the hull volume; the sample points divide every edge of the bounding box into equal steps and reach from edge to edge; the covered part is the fraction of the points in the hull that lie in some grain; and the coordination number is the mean number of grains overlapping a grain.", "quantifier": "All lists of folders and tables, boxes, grid sizes, packings, radii and hulls", "why_tests_cant": "The script has no tests; empty folders, skipped tables and packings away from the origin are cases among all inputs.", "anchors": ["applications/sintering/scripts/densification_analysis.py:53-120", "applications/sintering/scripts/densification_analysis.py:145-236"]}
{"id": "C121", "title": "Histories and histograms of the sizes of grains", "statement": "The script that analyses the tables of grains or pores over time makes one curve for every maximal run of consecutive tables with values from the start time on, each point holding the time, mean, spread and number of that table, and saves every curve; the two histograms are of the first table with values and of the first later one from the end time on (or the last one); every value is counted in the one bin whose edges surround it and the saved percentages add up to 100.", "quantifier": "All lists of tables with any values (also none), times, start and end times, options, numbers of bins and ranges around the values", "why_tests_cant": "Where curves split and end depends on the whole sequence of empty and filled tables; a test runs a few sequences.", "anchors": ["applications/sintering/scripts/distribution_analysis.py:34-62", "applications/sintering/scripts/distribution_analysis.py:88-96", "applications/sintering/scripts/distribution_analysis.py:112-167", "applications/sintering/scripts/distribution_analysis.py:190-218"]}
{"id": "C122", "title": "Final statistics of a run", "statement": "The final statistics count every attempted step exactly once, as a time step or as a failed try; the numbers of linear and Newton iterations and of residual evaluations are the sums over the accepted and over the failed attempts respectively, the largest step is the largest one accepted, and the averages are these sums divided by the numbers of steps and of iterations.", "quantifier": "All runs: sequences of solver answers, failures of any kind caught by the time loop, costs of the attempts and parameters", "why_tests_cant": "The sums range over all attempts of a run with arbitrary patterns of success and failure.", "anchors": ["applications/sintering/include/pf-applications/sintering/driver.h:147-157", "applications/sintering/include/pf-applications/sintering/driver.h:188-198", "applications/sintering/include/pf-applications/sintering/driver.h:2163-2176", "applications/sintering/include/pf-applications/sintering/driver.h:2369-2385", "applications/sintering/include/pf-applications/sintering/driver.h:2464-2505", "applications/sintering/include/pf-applications/sintering/driver.h:2710-2726"]}
{"id": "C123", "title": "Cell-wise output of pores and of translation velocities", "statement": "The file of the pores holds exactly the locally owned active cells that the detection put into a pore, in mesh order and every one once, with the global identifier of their pore; no look-up leaves its array. The vectors of the translation velocities number dim times the order parameters; the vector of order parameter ig and direction d holds, in every cell of the matrix-free loops, the velocity of its batch and lane if the batch has one for ig, and 0 in all other cells, and every vector can be told from the others by its name.", "quantifier": "all cell lists, ownerships, pore identifiers and offsets consistent with the detection; all dimensions, numbers of order parameters, cell batches without repeated cells and velocities", "why_tests_cant": "The tests write no such files and compare none; a skipped cell, a wrong lane or an ambiguous name shows only in a viewer.", "anchors": ["applications/sintering/include/pf-applications/sintering/postprocessors.h:1279-1357", "applications/sintering/include/pf-applications/sintering/postprocessors.h:1895-1947"]}
{"id": "C124", "title": "Output fields of the coupled operator", "statement": "For every set of requested fields, in 2D and 3D, the coupled operator adds one vector per direction named vel, holding the displacement divided by the time step (0 for a time step of 0), if vel is requested, followed by the dim(dim+1)/2 entries of the linear strain, if strain_lin is requested, each once under a name of its own; the entry named after two axes holds the derivative on the diagonal or the sum of the two mixed derivatives of exactly these axes. Nothing else is added and no access leaves its array.", "quantifier": "all sets of fields, time steps, block vectors and gradients with the displacement blocks, dim = 2 and 3", "why_tests_cant": "The tests compare no such files; a strain under the name of another one or an offset by the number of velocities looks plausible in a viewer.", "anchors": ["applications/sintering/include/pf-applications/sintering/operator_sintering_coupled_monolithic.h:173-326", "applications/sintering/include/pf-applications/sintering/operator_base.h:934-957", "applications/structural/include/pf-applications/structural/tools.h:9-65"]}
{"id": "C125", "title": "Report of the memory in use", "statement": "The memory reported for any nesting of values, objects, pointers, vectors and level objects is the sum of the sizes held, with an exception exactly if an object without a report is met. An operator reports what its members hold, every preconditioner has a report, a block preconditioner reports all of its operators and preconditioners, and the total printed by the driver is the sum of the lines below it, every one the sum over the ranks in units of 10^9 bytes.", "quantifier": "all nestings, operators, trees of preconditioners and ranks", "why_tests_cant": "No test switches the report on, and its numbers have no reference to compare with.", "anchors": ["include/pf-applications/base/memory_consumption.h:22-113", "applications/sintering/include/pf-applications/sintering/operator_base.h:642-658", "applications/sintering/include/pf-applications/sintering/preconditioners.h:1293-1303", "include/pf-applications/lac/preconditioners.h:92-98", "applications/sintering/include/pf-applications/sintering/driver.h:2411-2462"]}
{"id": "C126", "title": "Initial values of the tests of the tangents", "statement": "In 2D and 3D, at every point closer than 10^-9 to a node of the mesh of two unit cells, every component has the value of one fixed field at that node, whichever branch finds it, and components behind the order parameters are 0; the concentration is the sum of the two order parameters, which lie between 0 and 1; every other point is an error.", "quantifier": "all points of 2 or 3 coordinates, all nodes and components", "why_tests_cant": "The tests of the tangents use these values and would pass with an inconsistent or partly missing field.", "anchors": ["applications/sintering/include/pf-applications/sintering/initial_values_debug.h:24-125"]}
{"id": "C127", "title": "Grains read for the density of a packing", "statement": "With as many grains as rows in the table of a step, every grain gets the center and the greatest radius of its row, and as radius the only one for which a ball (a disk in 2D) has the volume of the row, zero if the volume is not positive; more rows than grains and tables of at most one row are errors, and exactly the tables whose first volume is no number are skipped.", "quantifier": "all tables, dimensions 2 and 3, numbers of grains and volumes", "why_tests_cant": "A wrong radius only shifts the reported density, and a single grain or fewer rows than grains do not occur in the examples.", "anchors": ["applications/sintering/scripts/densification_analysis.py:109-143"]}
