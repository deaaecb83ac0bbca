{
 "claims": [
  {
   "property": "C01",
   "status": "proved",
   "theorems": [
    "C01_bdf_exact"
   ],
   "note": "over exact rationals; floating point rounding is not modelled"
  },
  {
   "property": "C02",
   "status": "proved",
   "theorems": [
    "C02_startup_weights",
    "C02_startup_is_lower_order",
    "C02_startup_exact",
    "C02_zero_step_first_refuted"
   ],
   "note": "step sizes known so far are positive, the missing ones are zero; a zero in front of a positive step divides by zero (refuted case)"
  },
  {
   "property": "C03",
   "status": "proved",
   "theorems": [
    "C03_stored_steps",
    "C03_defined",
    "C03_stored_weights_exact"
   ],
   "note": ""
  },
  {
   "property": "C04",
   "status": "partial",
   "theorems": [
    "C04_roundtrip_implicit_partial",
    "C04_restart_same_scheme_partial",
    "C04_restart_other_scheme_partial",
    "C04_restart_short_partial",
    "C04_explicit_refuted"
   ],
   "note": "holds for implicit schemes; refuted for explicit schemes (order 0): the loaded state holds no step size and the restart code reads it out of range"
  },
  {
   "property": "C05",
   "status": "partial",
   "theorems": [
    "C05_old_solutions_partial",
    "C05_no_remap_inside_step",
    "C05_time_derivative_exact_partial",
    "C05_remap_inside_step_refuted"
   ],
   "note": "Proved for all executions without a value-changing remapping inside a step (option check_inconsistency); with it the code keeps one un-remapped old solution (refutation with witness). Failures of the solves for the divergences of the fluxes, after the new time is set, are not included (see C08_late_refuted)."
  },
  {
   "property": "C06",
   "status": "partial",
   "theorems": [
    "C06_time_partial",
    "C06_end_partial",
    "C06_overshoot_refuted",
    "C06_late_partial"
   ],
   "note": "Proved for all answers if the initial step fits into the simulated interval (exact arithmetic); a larger initial step overshoots (witness). Failures of the solves for the divergences of the fluxes, after the new time is set, are included in C06_late_partial; they advance the time without an accepted step (C08_late_refuted)."
  },
  {
   "property": "C07",
   "status": "proved",
   "theorems": [
    "C07_terminates",
    "C07_abort",
    "C07_zero_minimum_refuted",
    "C07_terminates_late"
   ],
   "note": "For all infinite answer sequences with positive initial, minimal and maximal step size; C07_zero_minimum_refuted shows that a positive minimum is needed. Failures after the new time is set are included (C07_terminates_late)."
  },
  {
   "property": "C08",
   "status": "partial",
   "theorems": [
    "C08_rollback",
    "C08_early",
    "C08_late_refuted",
    "C08_late_end_refuted"
   ],
   "note": "Proved for the failures of the step itself (Newton and linear solver, Courant check, grain tracker): C08_rollback; runs in which the solves for the divergences of the fluxes converge are covered by it (C08_early). Refuted for a failure of these solves, which come after the new time is set and are caught by the same handler: the time is not rolled back (C08_late_refuted, C08_late_end_refuted)."
  },
  {
   "property": "C09",
   "status": "partial",
   "theorems": [
    "C09_constant_steps_partial",
    "C09_variable_steps_refuted",
    "C09_pending_adaptation_refuted"
   ],
   "note": "Equivalence for all continuations if the stored step sizes are constant and nothing is pending; otherwise refuted with witnesses."
  },
  {
   "property": "C10",
   "status": "partial",
   "theorems": [
    "C10_gaps_partial",
    "C10_due",
    "C10_start_time_refuted"
   ],
   "note": "Proved for start time 0; other start times refuted with a witness."
  },
  {
   "property": "C100",
   "status": "partial",
   "theorems": [
    "C100_selection",
    "C100_file",
    "C100_accepted",
    "C100_ignored_refuted",
    "C100_understood",
    "C100_defaults",
    "C100_predictor_refuted",
    "C100_nonlinear_refuted",
    "C100_tracker",
    "C100_start",
    "C100_types",
    "C100_built",
    "C100_preconditioner_refuted",
    "C100_inner",
    "C100_fraction",
    "C100_fraction_refuted",
    "C100_element",
    "C100_subdivisions"
   ],
   "note": "Twelve options are understood word for word. Not so: multigrid preconditioners are accepted everywhere and always stop the program, three more words stop it for the second block, SNES stops a build without PETSc, the linear predictor with a first order scheme leaves a prediction of zero, a misspelt name in the file is skipped, and the factor 3 or 2.5 of the first refinement may make the two fractions exceed one. Options handed on to Trilinos, PETSc and SUNDIALS and numeric options are not modelled; the parameter handler of deal.II is modelled from its documentation."
  },
  {
   "property": "C101",
   "status": "proved",
   "theorems": [
    "C101_identity",
    "C101_two",
    "C101_three",
    "C101_round",
    "C101_rest",
    "C101_cells",
    "C101_cells_three",
    "C101_agree",
    "C101_numbering_refuted",
    "C101_cells_three_back"
   ],
   "note": "C101_numbering_refuted is the counterexample the statement speaks of: numbered component by component the quick version gives other values than the slow one. The functions are not called anywhere in the repository. Ghost entries are not modelled; the cells are those of one process."
  },
  {
   "property": "C102",
   "status": "partial",
   "theorems": [
    "C102_indices",
    "C102_rhs",
    "C102_step",
    "C102_restart",
    "C102_mass",
    "C102_lagged_refuted",
    "C102_chain_refuted",
    "C102_constraint_refuted"
   ],
   "note": "The last part is refuted: C102_lagged_refuted (u' = w, w = u: 2 instead of 9/4), C102_chain_refuted (w2 = w1 fails after a step) and C102_constraint_refuted (the sign is changed after the constraints are applied). ARKode itself is a function given from outside; timers, counters, tolerances and the setup of the preconditioner are not modelled."
  },
  {
   "property": "C103",
   "status": "partial",
   "theorems": [
    "C103_norms",
    "C103_all_zero",
    "C103_mean",
    "C103_dot",
    "C103_scalar",
    "C103_updates",
    "C103_add_two",
    "C103_add_and_dot",
    "C103_copy",
    "C103_assign",
    "C103_equ",
    "C103_reinit",
    "C103_reinit_like",
    "C103_sizes",
    "C103_entry",
    "C103_write",
    "C103_owned",
    "C103_independent",
    "C103_view",
    "C103_view_size_refuted",
    "C103_move_refuted",
    "C103_stale_refuted",
    "C103_assign_refuted",
    "C103_more_blocks_refuted",
    "C103_dot_shape"
   ],
   "note": "The last part is refuted: C103_view_size_refuted, C103_move_refuted, C103_stale_refuted, C103_assign_refuted. C103_more_blocks_refuted: in a release build further blocks of an operand are ignored. Ghost entries, several processes and rounding are not modelled."
  },
  {
   "property": "C104",
   "status": "partial",
   "theorems": [
    "C104_plan",
    "C104_remap",
    "C104_common_cell",
    "C104_neighbours_refuted",
    "C104_shapes_refuted",
    "C104_alone_takes_all"
   ],
   "note": "The last part is refuted: C104_neighbours_refuted, C104_shapes_refuted. C104_alone_takes_all: a grain without neighbour takes along all values of its order parameter. One process, no constraints, one solution vector; the distance of representations is given from outside."
  },
  {
   "property": "C105",
   "status": "partial",
   "theorems": [
    "C105_cap",
    "C105_part",
    "C105_densities",
    "C105_limits",
    "C105_outer_refuted",
    "C105_lost_refuted",
    "C105_coordination",
    "C105_average_refuted",
    "C105_radius_interval",
    "C105_positions"
   ],
   "note": "The last part is refuted: C105_outer_refuted, C105_lost_refuted, C105_average_refuted, C105_positions. Exact arithmetic; volumes as multiples of pi; contacts are given."
  },
  {
   "property": "C106",
   "status": "partial",
   "theorems": [
    "C106_contacts",
    "C106_connected",
    "C106_gap",
    "C106_repair",
    "C106_smallest_gap_refuted",
    "C106_minimum_refuted"
   ],
   "note": "Exact rationals instead of floating point; the kd-tree, connected_components and minimum_spanning_tree of scipy enter by what they promise (minimality of the tree is not used). Reading, writing and plotting are not modelled. Refuted: smallest gap between components (only the nearest centre is looked at) and the smallest number of enlarged particles."
  },
  {
   "property": "C107",
   "status": "partial",
   "theorems": [
    "C107_pairs",
    "C107_single_refuted"
   ],
   "note": "Exact rationals; distances instead of coordinates; argsort and query_radius enter by what they promise (existence shown). Refuted for one sphere: the small group is empty and the ball tree cannot be built. The returned index arrays into directed contacts are not modelled."
  },
  {
   "property": "C108",
   "status": "partial",
   "theorems": [
    "C108_limits",
    "C108_centrify",
    "C108_centred_refuted",
    "C108_rotation",
    "C108_contacts",
    "C108_scale_zero_refuted",
    "C108_extract",
    "C108_position"
   ],
   "note": "Exact real numbers; files are not modelled (a column of integers is read as integers and truncated on assignment). Refuted: centring for packings not starting at zero, and a scale of zero."
  },
  {
   "property": "C109",
   "status": "partial",
   "theorems": [
    "C109_fill",
    "C109_fill_unique",
    "C109_rows",
    "C109_columns",
    "C109_missing",
    "C109_names",
    "C109_names_refuted",
    "C109_initialised_refuted"
   ],
   "note": "Exact rationals; ids in a file unique; reading and writing of files, labels and listing of available ids are not modelled. Refuted: names after a folder without files, initialisation with fewer files than rows."
  },
  {
   "property": "C11",
   "status": "proved",
   "theorems": [
    "C11_rotation",
    "C11_resumed_counter"
   ],
   "note": ""
  },
  {
   "property": "C110",
   "status": "partial",
   "theorems": [
    "C110_labels",
    "C110_distinct_refuted",
    "C110_empty_refuted",
    "C110_escape_injective",
    "C110_escape",
    "C110_progress"
   ],
   "note": "8-bit characters; the option extend_to, a single file, plotting and colours are not modelled; the division in the progress bar is exact. Refuted: distinct and nonempty labels in general, absence of exceptions."
  },
  {
   "property": "C111",
   "status": "partial",
   "theorems": [
    "C111_locked",
    "C111_single_mobility",
    "C111_mobility_refuted",
    "C111_clean_refuted",
    "C111_debug_refuted",
    "C111_unknown",
    "C111_options",
    "C111_options_refuted",
    "C111_kept"
   ],
   "note": "Names are numbers; jobs that finish while the script runs, special settings, restart files, the command text and failures of the file system are not modelled. Refuted: submission for several mobilities, protection by locks when cleaning, debug runs without effect, command line priority, use of the mail address."
  },
  {
   "property": "C112",
   "status": "partial",
   "theorems": [
    "C112_active",
    "C112_hyphen_refuted",
    "C112_submit",
    "C112_stuck"
   ],
   "note": "The number of active jobs per pass is an arbitrary sequence; the queue is given as lines of count and partition, with job states in capital letters; negative limits act like zero; sbatch failures and timing are not modelled. Refuted: counting for partition names with other characters than letters, digits and underscores."
  },
  {
   "property": "C113",
   "status": "partial",
   "theorems": [
    "C113_length",
    "C113_table",
    "C113_shrinkage",
    "C113_zero_refuted",
    "C113_leading_refuted",
    "C113_label_refuted",
    "C113_reference"
   ],
   "note": "Exact rationals; given reference particles, the product for the volume, reading files, file names and plots are not modelled. Refuted: columns under the right header with zero columns, absence of exceptions with leading zeros, plot labels."
  },
  {
   "property": "C114",
   "status": "proved",
   "theorems": [
    "C114_connections",
    "C114_groups",
    "C114_once"
   ],
   "note": "deal.II's periodic neighbors and ghost layers and boost's connected components are parameters with stated contracts; values of ghost cells are those of the owner (distributed_stitching.h 210)."
  },
  {
   "property": "C115",
   "status": "partial",
   "theorems": [
    "C115_columns",
    "C115_integral",
    "C115_energies",
    "C115_unknown",
    "C115_default_refuted"
   ],
   "note": "Exact arithmetic; the bulk energy and the filter of a box are functions given from outside (C28, C65, C27); reading and evaluating the solution is not part of this claim; digits of the output are not modelled. Refuted: the default labels work for grain growth and the grand potential."
  },
  {
   "property": "C116",
   "status": "partial",
   "theorems": [
    "C116_flat",
    "C116_block",
    "C116_singular",
    "C116_refuted"
   ],
   "note": "C116_block and C116_flat give the exact product for all inputs. The claim fails for nodes without material: the hooks for plain vectors overwrite the member zero_c_constraints_values with the zeros of the merged source, so the product of block vectors is zero there (C116_refuted) and forgets these entries for every matrix (C116_singular); the matrix-free product keeps them. For plain vectors the destination is zero at supported nodes and the source comes back with zeros (C116_flat)."
  },
  {
   "property": "C117",
   "status": "partial",
   "theorems": [
    "C117_product",
    "C117_exact",
    "C117_single",
    "C117_refuted"
   ],
   "note": "The claim is false: temp has no value and the loop starts with the second grain. C117_product gives the exact result for every content of temp, C117_exact shows that it is the product if and only if temp happens to hold eta_0 v_0 or all order parameters are zero, C117_refuted is a case with temp zero. The function is not called by the operator of grain growth, which has its own loop (C28 and the grain growth claims), but it is part of the interface the generic operator uses."
  },
  {
   "property": "C118",
   "status": "partial",
   "theorems": [
    "C118_groups",
    "C118_values",
    "C118_report",
    "C118_linear",
    "C118_silent",
    "C118_additional_refuted",
    "C118_snes_refuted"
   ],
   "note": "Proved for the damped solver and operators with n_data or n_data + dim components. Refuted: operators with additional components (n_additional_components of the coupled base) and the solver of PETSc (compiled with USE_SNES, default verbosity 1), where monitor hands over VectorType(). The text (widths, digits) is not modelled."
  },
  {
   "property": "C119",
   "status": "partial",
   "theorems": [
    "C119_row",
    "C119_file",
    "C119_restart",
    "C119_restart_refuted",
    "C119_debug_refuted",
    "C119_start_refuted",
    "C119_vanish_refuted"
   ],
   "note": "Proved for runs whose first result is at time zero and while order parameters and grains exist (C119_row, C119_file), and for restarts with no result after the restart point (C119_restart). Refuted: lines after the restart point occur twice (C119_restart_refuted); with debug output the table of the refinements keeps only the last one at time zero (C119_debug_refuted); a run started at another time writes zero as its first time (C119_start_refuted); without grains in the tracker a line is shorter than the header (C119_vanish_refuted)."
  },
  {
   "property": "C12",
   "status": "proved",
   "theorems": [
    "C12_move",
    "C12_move_back",
    "C12_insert",
    "C12_insert_remove",
    "C12_remove_insert",
    "C12_remove_all_insert_all",
    "C12_remove_all_defined",
    "C12_view"
   ],
   "note": "Blocks are compared by content; sharing of a block between two vectors is not modelled."
  },
  {
   "property": "C120",
   "status": "partial",
   "theorems": [
    "C120_saved",
    "C120_names",
    "C120_names_refuted",
    "C120_skipped_refuted",
    "C120_grid",
    "C120_ends",
    "C120_ends_refuted",
    "C120_cover",
    "C120_coordination"
   ],
   "note": "Proved for folders that all have tables, none of them skipped, and boxes with positive upper corner. Refuted: an empty folder shifts the names of all later ones (C120_names_refuted); the row of a skipped table is saved as found in memory (C120_skipped_refuted); with an upper edge not above zero the last layer of points is missing (C120_ends_refuted)."
  },
  {
   "property": "C121",
   "status": "partial",
   "theorems": [
    "C121_curves",
    "C121_histograms",
    "C121_saved",
    "C121_trailing_refuted",
    "C121_delete",
    "C121_delete_refuted",
    "C121_counts",
    "C121_percents",
    "C121_moments"
   ],
   "note": "Proved: the curves are the maximal runs of tables with values, closed runs repeat their last point (C121_curves); which tables the histograms are of (C121_histograms); what is saved (C121_saved); the value left out on demand (C121_delete); bins and percentages (C121_counts, C121_percents). Refuted: if the last tables are without values the script stops before the last run with values is saved (C121_trailing_refuted); leaving out the largest value fails for a table without values, and the saved number counts one value more than the mean (C121_delete_refuted). Exact numbers; files, plots and tables of one row as numpy reads them are not modelled."
  },
  {
   "property": "C122",
   "status": "partial",
   "theorems": [
    "C122_counts",
    "C122_late_refuted",
    "C122_average",
    "C122_average_refuted"
   ],
   "note": "Proved for runs in which the solves for the divergences of the fluxes converge (C122_counts; sums as unsigned 32-bit numbers) and for averages over at least one step (C122_average). Refuted: a failure of these solves counts the attempt as a step and as a failed try (C122_late_refuted); a run without steps divides by zero (C122_average_refuted)."
  },
  {
   "property": "C123",
   "status": "partial",
   "theorems": [
    "C123_pores",
    "C123_velocities",
    "C123_names_refuted"
   ],
   "note": "The selection of cells, their identifiers and the values of all velocity vectors are proved. The last clause is refuted: the directions of one order parameter share one name in 2D and 3D. The detection of pores is modelled in PoreModel.v; velocities and lanes are arguments here."
  },
  {
   "property": "C124",
   "status": "proved",
   "theorems": [
    "C124_fields"
   ],
   "note": "The projection of the values at the quadrature points on the nodes is not modelled: strains are given by their values at the points."
  },
  {
   "property": "C125",
   "status": "partial",
   "theorems": [
    "C125_containers",
    "C125_operator",
    "C125_operator_refuted",
    "C125_preconditioner",
    "C125_solid_refuted",
    "C125_report",
    "C125_total_refuted",
    "C125_amounts"
   ],
   "note": "Containers, operators without block matrices and the lines of the driver are proved. Refuted: block matrices are added twice, three kinds of preconditioners throw, the operator of the solid and its preconditioner are left out, and the total leaves out the sintering data."
  },
  {
   "property": "C126",
   "status": "proved",
   "theorems": [
    "C126_values",
    "C126_elsewhere",
    "C126_mass"
   ],
   "note": "Rational coordinates; the comparison of the distance is one of squares."
  },
  {
   "property": "C127",
   "status": "partial",
   "theorems": [
    "C127_balls",
    "C127_errors",
    "C127_missing_refuted",
    "C127_nan_refuted"
   ],
   "note": "Exact real numbers. With fewer rows than grains the missing ones silently are points at the origin, which widen the grid of sample points (C127_missing_refuted); a volume behind the first that is no number silently makes a point of its grain (C127_nan_refuted); once only one grain is left the script ends with an exception (C127_errors)."
  },
  {
   "property": "C13",
   "status": "partial",
   "theorems": [
    "C13_no_displacements_partial",
    "C13_growth_partial",
    "C13_shrink_cuts_end",
    "C13_shrink_refuted",
    "C13_growth_without_remap_refuted"
   ],
   "note": "Holds without displacement blocks and, with them, for growth with a remapping. Shrinking with displacement blocks always cuts the last displacement off, and growth without a remapping puts the new blocks behind the displacements, so the full statement is refuted."
  },
  {
   "property": "C14",
   "status": "proved",
   "theorems": [
    "C14_success",
    "C14_nan_start",
    "C14_converged_start",
    "C14_simple_newton_success"
   ],
   "note": "Both Newton solvers (solvers_nonlinear.h and newton.h); NOX and SNES are external."
  },
  {
   "property": "C15",
   "status": "partial",
   "theorems": [
    "C15_budget",
    "C15_monotone",
    "C15_simple_newton",
    "C15_user_check_refuted"
   ],
   "note": "Proved if the user supplied check never answers \"iterate\" (the one in time_marching.h for the damped solver never does). For an arbitrary user check the limit can be exceeded without bound, which is proved as a refutation."
  },
  {
   "property": "C16",
   "status": "proved",
   "theorems": [
    "C16_stitching_is_components",
    "C16_order_independent",
    "C16_particles_are_regions"
   ],
   "note": "For every decomposition, well-formed symmetric contacts and message order. C16_particles_are_regions connects it with the flooding on all ranks (contacts built from the mesh)."
  },
  {
   "property": "C17",
   "status": "partial",
   "theorems": [
    "C17_algorithms_agree",
    "C17_terminates",
    "C17_count",
    "C17_contract_satisfiable",
    "C17_empty_refuted"
   ],
   "note": "Proved for at least one particle, with the documented contract of boost::connected_components as a hypothesis (shown satisfiable). Without any particle the graph variant has undefined behaviour (C17_empty_refuted)."
  },
  {
   "property": "C18",
   "status": "partial",
   "theorems": [
    "C18_labels",
    "C18_regions_partial",
    "C18_unrefined",
    "C18_max_values",
    "C18_refined_refuted"
   ],
   "note": "All meshes: labelled cells, contiguous labels, connected cells share a label. Exactly the regions on meshes without refinement or when no jump occurs; refuted with local refinement (all children of a refined neighbour are flooded)."
  },
  {
   "property": "C19",
   "status": "partial",
   "theorems": [
    "C19_measures_centers",
    "C19_partition_independent",
    "C19_max_values_partial",
    "C19_max_values_refuted"
   ],
   "note": "Measures and centers proved for all partitions. The maximum value is proved if no rank owns two separate parts of one particle and refuted otherwise (assignment instead of maximum, distributed_stitching.h 247)."
  },
  {
   "property": "C20",
   "status": "proved",
   "theorems": [
    "C20_partial_injection"
   ],
   "note": "For all grain sets and any R-tree query order; precondition: order parameters below n_order_params (otherwise out of range access)."
  },
  {
   "property": "C21",
   "status": "partial",
   "theorems": [
    "C21_conflicts",
    "C21_nearest_partial",
    "C21_segments_refuted"
   ],
   "note": "Conflicts between new grains proved in general; nearest candidate proved for new grains with one segment and refuted for several segments (tracking.h 170 does not record the distance)."
  },
  {
   "property": "C22",
   "status": "partial",
   "theorems": [
    "C22_track",
    "C22_lookup",
    "C22_segment_numbers",
    "C22_reuse_partial",
    "C22_reuse_refuted"
   ],
   "note": "Distinct ids, fresh ids above all old ones, lookup and numbering are proved. The claim that a retired id is never reused is false: the id of a vanished grain with the greatest id is given away again (C22_reuse_refuted); C22_reuse_partial covers ids below the greatest one in use"
  },
  {
   "property": "C23",
   "status": "partial",
   "theorems": [
    "C23_reassignment_separates",
    "C23_reassignment",
    "C23_fast_reassignment_has_no_effect",
    "C23_nearest_neighbour",
    "C23_transfer_buffers_disjoint",
    "C23_maximum_exceeded_refuted",
    "C23_no_grains_refuted",
    "C23_fast_reassignment_is_first_fit"
   ],
   "note": "Proper colouring, contiguous numbering, exception and collision count proved for every colouring meeting its contract. The limit on the number of order parameters is only checked when a colouring is made (refuted otherwise), and an empty set of grains is undefined behaviour (refuted). The fast reassignment is proved to have no effect with square deal.II patterns."
  },
  {
   "property": "C24",
   "status": "partial",
   "theorems": [
    "C24_cell",
    "C24_remap",
    "C24_remap_interior",
    "C24_shared_dofs_refuted"
   ],
   "note": "remap_new is modelled; the claim holds for every degree of freedom whose surrounding cells know the moved grain where needed. A counterexample shows that a value below the detection threshold at a degree of freedom shared with another cell can be lost. remap_old and the exchange of ghost values are not modelled."
  },
  {
   "property": "C25",
   "status": "proved",
   "theorems": [
    "C25_schedule",
    "C25_no_cycle_no_temporary"
   ],
   "note": "All orders in which boost hands out edges are covered."
  },
  {
   "property": "C26",
   "status": "partial",
   "theorems": [
    "C26_primes",
    "C26_decompose",
    "C26_adjust",
    "C26_no_primes",
    "C26_initial_refines",
    "C26_interface_resolution",
    "C26_interface_primes",
    "C26_radius_resolution",
    "C26_not_closest_refuted",
    "C26_coarser_refuted",
    "C26_small_domain_refuted",
    "C26_limit_one_refuted"
   ],
   "note": "The choice is minimal over the primes for the refinements the code computes, not over all refinements. Counterexamples: undefined conversion for fewer elements than the prime limit, no subdivisions for limit 1, mesh coarser than requested."
  },
  {
   "property": "C27",
   "status": "partial",
   "theorems": [
    "C27_position",
    "C27_filter_value",
    "C27_filter_agrees",
    "C27_intersects",
    "C27_intersection",
    "C27_edge_cut",
    "C27_filter_mesh",
    "C27_contained_box_refuted",
    "C27_tolerance_refuted",
    "C27_short_edges_refuted"
   ],
   "note": "One rank; ghost exchange and hanging node constraints are not modelled. Counterexamples: cell containing the box, relative tolerance of the box, edges shorter than 1e-6."
  },
  {
   "property": "C28",
   "status": "proved",
   "theorems": [
    "C28_first_derivatives",
    "C28_second_derivatives",
    "C28_mixed_product",
    "C28_no_power_3"
   ],
   "note": "Real arithmetic, one lane. Both the compile-time and the run-time evaluator. Uses the standard library's real number axioms."
  },
  {
   "property": "C29",
   "status": "partial",
   "theorems": [
    "C29_bulk_states",
    "C29_nonnegative",
    "C29_nonnegative_sharp",
    "C29_material_parameters",
    "C29_double_well_sign_refuted"
   ],
   "note": "Non-negativity needs A + B >= 0, which for the derived parameters is exactly gamma_gb <= 2 gamma_s; the condition is proved sharp, so the claim fails for gamma_gb > 2 gamma_s. The coefficient A alone can be negative for admissible energies."
  },
  {
   "property": "C30",
   "status": "partial",
   "theorems": [
    "C30_nonnegative",
    "C30_derivatives",
    "C30_linearised_flux",
    "C30_outside_refuted"
   ],
   "note": "Proved for every number of grains, coefficients and states with 0 <= c <= 1 (the claim on the order parameters and the sign hold for every c). Refuted outside: the interpolation is cut off there but its derivative is not, so the reported derivative is wrong for c < 0 or c > 1 whenever the bulk and vapour coefficients differ. Real arithmetic, not floating point."
  },
  {
   "property": "C31",
   "status": "partial",
   "theorems": [
    "C31_dissipation",
    "C31_linearised_flux_partial",
    "C31_bulk_derivative_refuted",
    "C31_projector_scale_refuted",
    "C31_dM_dc"
   ],
   "note": "The full statement is false: the concentration derivative of the bulk/vapour parts is four times too large, and the projector scale is missing in front of the new gradient. C31_linearised_flux_partial gives the exact derivative = reported one + these two errors where the cut-offs of the code (1e-6, 1e-4) do not act and with the gradients of the order parameters kept fixed, as in the code. Dissipation holds for all states."
  },
  {
   "property": "C32",
   "status": "partial",
   "theorems": [
    "C32_interpolates",
    "C32_constant_continuation",
    "C32_linear_continuation",
    "C32_bounds",
    "C32_monotone",
    "C32_insertion_order",
    "C32_single_pair_refuted"
   ],
   "note": "Proved for constant continuation (the one the driver uses) with any non-empty table and for linear continuation with at least two pairs; a single pair with linear continuation reads beyond the end of the vector (refuted part). Rational arithmetic."
  },
  {
   "property": "C33",
   "status": "partial",
   "theorems": [
    "C33_action_reaction",
    "C33_generic_balance",
    "C33_generic_partial",
    "C33_distribution",
    "C33_weighted_action_reaction",
    "C33_weighted",
    "C33_untracked_refuted",
    "C33_where"
   ],
   "note": "Weighted force model: forces cancel pairwise and sum to zero for any distribution. Generic model: the sum equals what falls on cells without a segment, hence zero only if every cell with a pair force has a tracked segment for both grains; C33_untracked_refuted shows fringe cells that break the balance. Real arithmetic."
  },
  {
   "property": "C34",
   "status": "partial",
   "theorems": [
    "C34_power_3d",
    "C34_power_2d_refuted",
    "C34_zero_at_stored_centre_partial",
    "C34_stored_centre",
    "C34_centre_refuted",
    "C34_translation"
   ],
   "note": "In 3D the power of the induced rotation is never negative. In 2D it is minus the square of the torque times a positive factor (C34_power_2d_refuted). The rotation vanishes at the stored centre, but the stored centre is the centre times the number of contributions, so not at the centre of the grain (C34_centre_refuted)."
  },
  {
   "property": "C35",
   "status": "partial",
   "theorems": [
    "C35_translation_and_rotation_partial",
    "C35_velocity_without_cut_off_partial",
    "C35_velocity_with_cut_off_partial",
    "C35_cut_off_wrong_grain_refuted",
    "C35_cut_off_throws_refuted",
    "C35_weighted_refuted",
    "C35_weighted_entries_refuted",
    "C35_many_grains_refuted"
   ],
   "note": "Generic force model: the tables cover all cells and the data belong to the grain asked for (at most 255 order parameters). With the cut-off get_velocity maps the index twice: right only in front of the first grain that is not relevant, wrong grain or exception otherwise. Weighted force model: the tables are cleared after they were filled, every read is out of range."
  },
  {
   "property": "C36",
   "status": "partial",
   "theorems": [
    "C36_relevant_grains_partial",
    "C36_compact_values_partial",
    "C36_compact_gradients_partial",
    "C36_values_read_back_partial",
    "C36_gradients_read_back_partial",
    "C36_grain_to_relevant_grain_partial",
    "C36_more_grains_than_lanes_refuted",
    "C36_extra_blocks_refuted",
    "C36_gradient_stride_refuted"
   ],
   "note": "With at most as many order parameters as lanes and no blocks behind them the tables stay in their memory, the storages are packed without gaps and reading at the offset of a cell gives its relevant grains in order. Refuted: more order parameters than lanes write outside of a table (C36_more_grains_than_lanes_refuted), extra blocks read outside of the component table (C36_extra_blocks_refuted), and with scalar mobility and saved order parameter gradients the reader skips too few gradients (C36_gradient_stride_refuted)."
  },
  {
   "property": "C37",
   "status": "proved",
   "theorems": [
    "C37_circle",
    "C37_hypercube",
    "C37_circle_distances",
    "C37_hypercube_distances",
    "C37_array_domain"
   ],
   "note": "Unsigned arithmetic does not overflow. The distances (touching neighbours, no overlap, grains of one order parameter do not touch) and the reported domain are proved in real arithmetic. With more order parameters than diagonals the hypercube has order parameters without grains."
  },
  {
   "property": "C38",
   "status": "partial",
   "theorems": [
    "C38_domain_encloses",
    "C38_domain_tight_partial",
    "C38_domain_tight_refuted",
    "C38_linked_symmetric",
    "C38_touching_differ",
    "C38_same_op_apart_partial",
    "C38_same_op_apart_refuted",
    "C38_grain_order_partial",
    "C38_neighbour_order_partial",
    "C38_order_refuted"
   ],
   "note": "The domain encloses all particles and touching particles get different order parameters for every coloring that separates linked particles. Refuted: the upper bound of the domain starts from the smallest positive number and is not tight for negative coordinates; with direction inside and the default buffer ratio of the class two particles with one order parameter reach the same point; the value at a point inside of three particles depends on the particle order. Independence of the order is proved without such ties."
  },
  {
   "property": "C39",
   "status": "partial",
   "theorems": [
    "C39_sphere",
    "C39_sharp",
    "C39_interface_middle_partial",
    "C39_interface_exchanged_refuted",
    "C39_microstructure",
    "C39_order_parameters",
    "C39_concentration",
    "C39_components",
    "C39_array",
    "C39_neck_refuted"
   ],
   "note": "Bounds, inside and outside values, concentration against order parameters and the layout of the components are proved. Refuted: the directions inside and outside are exchanged for spherical particles (a microstructure follows them); on the neck of two overlapping particles the concentration is one half unless accumulated."
  },
  {
   "property": "C40",
   "status": "proved",
   "theorems": [
    "C40_fields",
    "C40_lines",
    "C40_particles",
    "C40_blank_line_fails"
   ],
   "note": "std::getline is modelled after the C++ standard; std::stod is arbitrary. Lines shorter than 2^31 characters. A line with too few fields reads outside of the vector, a blank line makes std::stod throw."
  },
  {
   "property": "C41",
   "status": "partial",
   "theorems": [
    "C41_dof_map",
    "C41_renumbered_map",
    "C41_same_process",
    "C41_round_trip",
    "C41_fewer_fields_partial",
    "C41_fewer_fields_refuted"
   ],
   "note": "Any number of processes and fields, any numbering, any older content of the file: all fields come back. Reading fewer fields gives the first ones on one process only: the offsets of the processes depend on the number of fields read (C41_fewer_fields_refuted). SolutionTransfer of deal.II (flexible output) is not modelled."
  },
  {
   "property": "C42",
   "status": "proved",
   "theorems": [
    "C42_limit",
    "C42_idempotent",
    "C42_wrong_mask",
    "C42_mask"
   ],
   "note": "For all vectors, masks and ranges with lower <= upper limit; NaNs are left as they are. Infinite values are not modelled."
  },
  {
   "property": "C43",
   "status": "partial",
   "theorems": [
    "C43_call_count",
    "C43_once_per_interval",
    "C43_simulation_time",
    "C43_rate",
    "C43_disabled",
    "C43_real_time",
    "C43_fraction_refuted"
   ],
   "note": "Proved for call intervals of at least one and all positive time intervals (up to the tolerance 1e-10 of the code); call intervals between zero and one lead to a remainder by zero (refuted part). Counter overflow after 2^32 calls not modelled."
  },
  {
   "property": "C44",
   "status": "partial",
   "theorems": [
    "C44_marking",
    "C44_limits",
    "C44_levels_stay_within_limits",
    "C44_driver_limits",
    "C44_initial_refinements_suffice",
    "C44_initial_refines_complete",
    "C44_extra_coarsening_refuted",
    "C44_below_minimum_refuted"
   ],
   "note": "Proved for all meshes, fields and error-based flags whenever the minimum level does not exceed the maximum, with the complete effect of the marking and an invariant over any number of adaptations (deal.II smoothing and execution as relations). Refuted: extra coarsening with max_refinement_depth 0 wraps the depth to 2^32-1 so the maximum falls below the minimum and cells on the minimum level are coarsened; cells already below the minimum are not protected."
  },
  {
   "property": "C45",
   "status": "partial",
   "theorems": [
    "C45_forward_euler",
    "C45_runge_kutta_4",
    "C45_cubic_exact",
    "C45_constant_exact",
    "C45_linear_order",
    "C45_stationary",
    "C45_stationary_stages_refuted"
   ],
   "note": "Proved for every residual, mass matrix inverse and step size if all equations are time dependent. With a stationary equation the stages of the four stage scheme use the stationary values of the stage before, so the stage states are not the classical ones and the step is correct to first order only (refuted part). Real arithmetic."
  },
  {
   "property": "C46",
   "status": "partial",
   "theorems": [
    "C46_lower_bound_is_minimum",
    "C46_centers_is_minimum",
    "C46_symmetric",
    "C46_spherical_distance",
    "C46_elliptical_distance_symmetric",
    "C46_never_larger_than_gap",
    "C46_gap_is_attained",
    "C46_overlap",
    "C46_overlap_any",
    "C46_built_grain",
    "C46_transfer_buffer",
    "C46_buffered_regions_disjoint",
    "C46_wavefront_symmetric_refuted",
    "C46_mixed_representations_refuted"
   ],
   "note": "Everything proved for spherical grains in any dimension, including that the lower bound is the exact gap of the unions of balls. For other representations: symmetric for ellipsoids if the distance of two ellipsoids is; refuted for wavefront representations (lookup in one-sided maps) and for mixed representations (failed assertion)."
  },
  {
   "property": "C47",
   "status": "partial",
   "theorems": [
    "C47_box",
    "C47_inside_partial",
    "C47_nonempty_refuted"
   ],
   "note": "The box lies inside the packing, the padding plus the largest radius (not the diameter) away from each side, and is left out if packing minus padding minus diameter is not positive; but the test counts the padding once while the box loses it on both sides, so the box may be inverted (refuted part)."
  },
  {
   "property": "C48",
   "status": "partial",
   "theorems": [
    "C48_linear_exact",
    "C48_extrapolates_accepted_partial",
    "C48_fallback_refuted",
    "C48_restart_refuted"
   ],
   "note": "Exactness proved; the fallback claim is false (zero guess), and after a restart the extrapolation uses a zero vector."
  },
  {
   "property": "C49",
   "status": "proved",
   "theorems": [
    "C49_power_sums",
    "C49_defined"
   ],
   "note": "All lengths and all powers, including deal.II's exponentiation by squaring."
  },
  {
   "property": "C50",
   "status": "proved",
   "theorems": [
    "C50_origin",
    "C50_prefer_growing_partial",
    "C50_prefer_growing_refuted",
    "C50_barycenter",
    "C50_prefer_growing_choice"
   ],
   "note": "Proved for all grain configurations with at least one segment. Beyond the statement: with the option prefer_growing growing grains are in general not preferred (refuted)."
  },
  {
   "property": "C51",
   "status": "proved",
   "theorems": [
    "C51_preconditioner_age"
   ],
   "note": ""
  },
  {
   "property": "C52",
   "status": "partial",
   "theorems": [
    "C52_inertia",
    "C52_inertia_diagonal",
    "C52_radii",
    "C52_remote_partial",
    "C52_remote_refuted"
   ],
   "note": "Radii and moments of inertia proved for all partitions. The remote point is proved if only one rank attains the radius; if several do, their points are added (refuted)."
  },
  {
   "property": "C53",
   "status": "partial",
   "theorems": [
    "C53_axes",
    "C53_own_axes",
    "C53_documented_refuted",
    "C53_rodrigues",
    "C53_rotation",
    "C53_composition",
    "C53_long_axis_refuted",
    "C53_inertia",
    "C53_inertia_positive",
    "C53_inertia_parallel"
   ],
   "note": "Proved for the code as written. Refuted: the documentation of rotation_tensor_from_axes gives the transposed tensor; rotation_via_quaternions needs a unit axis, which it does not check."
  },
  {
   "property": "C54",
   "status": "proved",
   "theorems": [
    "C54_groups",
    "C54_detection",
    "C54_values"
   ],
   "note": "boost::connected_components is an oracle satisfying components_contract; particles are given by segment, maximum and measure"
  },
  {
   "property": "C55",
   "status": "proved",
   "theorems": [
    "C55_arrhenius",
    "C55_diffusion_monotone",
    "C55_arrhenius_law"
   ],
   "note": "Real arithmetic."
  },
  {
   "property": "C56",
   "status": "partial",
   "theorems": [
    "C56_inside",
    "C56_semi_axes",
    "C56_distance",
    "C56_coinciding_centers_throw",
    "C56_monotone",
    "C56_collinear_accuracy",
    "C56_converges",
    "C56_converged_refuted",
    "C56_radii",
    "C56_row_refuted",
    "C56_from_form_refuted",
    "C56_restored_refuted",
    "C56_covering",
    "C56_scale",
    "C56_cell_refuted"
   ],
   "note": "Containment, realised distance, monotonicity, convergence with the collinearity test, radii and enlargement are proved over the reals. Refuted: with the default (relative) test a reported convergence does not bound the error; a row of cells has a zero radius; the constructor from a quadratic form; scaling a restored ellipsoid (axes are not serialized); covering the outer points does not cover the cells."
  },
  {
   "property": "C57",
   "status": "partial",
   "theorems": [
    "C57_neck_plane_partial",
    "C57_neck_plane_refuted",
    "C57_contained_refuted",
    "C57_ray_refuted",
    "C57_partition_partial",
    "C57_monotone_partial",
    "C57_neighbours"
   ],
   "note": "Proved if no ball contains the other, the neck lies between the centers and, in 3D, the orientation point is not on the line of the centers; across the neck the order parameter falls strictly. Refuted otherwise: plane on the wrong side of the center; both particles vanish where one contains the other; in 3D the nearer particle vanishes if the centers are in line with the origin. Only two particles at the point are considered for the sum."
  },
  {
   "property": "C58",
   "status": "partial",
   "theorems": [
    "C58_distance",
    "C58_even_odd",
    "C58_cut",
    "C58_orientation",
    "C58_triangle",
    "C58_fan",
    "C58_box",
    "C58_nearest",
    "C58_box_filter",
    "C58_value",
    "C58_repeated_end_refuted",
    "C58_repeated_point_refuted"
   ],
   "note": "All proved for contours without repeated consecutive points, in exact arithmetic. Refuted for contours with repeated points: repeating the first point at the end gives no interface at all, a point given twice hides all edges before it. The interior is characterised for triangles and by the sum of triangles for other contours."
  },
  {
   "property": "C59",
   "status": "partial",
   "theorems": [
    "C59_neighbors",
    "C59_unrefined",
    "C59_refined_refuted"
   ],
   "note": "All touching pairs are found, on any partition and refinement, and the map is symmetric. With local refinement also pairs that touch nowhere are recorded, because all children of a refined neighbour are searched (C59_refined_refuted). Contacts across periodic faces are outside of the model (at_boundary is true there)."
  },
  {
   "property": "C60",
   "status": "partial",
   "theorems": [
    "C60_sound",
    "C60_stored",
    "C60_nearest",
    "C60_distances",
    "C60_ranks_refuted",
    "C60_levels_refuted",
    "C60_hanging_refuted"
   ],
   "note": "Termination and soundness on any number of processes; completeness and exactness of the smallest distance on one process (exactness for at most two levels of cells). Refuted beyond that: collisions at process borders are dropped, so nothing may be stored (C60_ranks_refuted); with three levels the stored distance may exceed the shortest way (C60_levels_refuted). Hypotheses: faces between cells of different size do not separate processes (wo_border). If a face between cells of different size lies on a process border, a particle cell may keep the distance -1 and the stored distance is below every way (C60_hanging_refuted)."
  },
  {
   "property": "C61",
   "status": "partial",
   "theorems": [
    "C61_point",
    "C61_jacobian",
    "C61_outside_refuted",
    "C61_tensorial_refuted"
   ],
   "note": "Proved for the isotropic mobility and concentrations between 0 and 1. Refuted outside of this range (the clipped mobility is constant there while its derivative is not) and for the tensorial mobility (the terms of the gradients of the order parameters and of the etas in the derivative are missing in the code). Real arithmetic; assembly is a sum over quadrature points, hanging node constraints not modelled."
  },
  {
   "property": "C62",
   "status": "proved",
   "theorems": [
    "C62_balance",
    "C62_conservation"
   ],
   "note": "Exact real arithmetic, exactly solved rows of the concentration, fixed mesh between steps (the mesh change is in C15/C16), shape functions that sum to one."
  },
  {
   "property": "C63",
   "status": "proved",
   "theorems": [
    "C63_dissipation"
   ],
   "note": "Exact real arithmetic, exactly solved residual; the statement is about the derivative along the discrete rate, not about the difference of two steps. Order parameters must not be negative at the quadrature points (the mobility may become negative otherwise, C30)."
  },
  {
   "property": "C64",
   "status": "partial",
   "theorems": [
    "C64_block",
    "C64_flat",
    "C64_flat_refuted",
    "C64_layout",
    "C64_matrix",
    "C64_coupled",
    "C64_coupled_refuted",
    "C64_elastic_partial",
    "C64_elastic_refuted",
    "C64_flat_components_partial"
   ],
   "note": "Proved for block vectors and for plain vectors with one component per constrained entry. Refuted for plain vectors with several components on a scalar element (third loop of vmult), for the coupled operator with nodes without material (the source is not restored; update_state that fills this list has no caller) and for the elastic operator (affine, source overwritten). The cell loop is a function from source to destination; ghost entries are not modelled."
  },
  {
   "property": "C65",
   "status": "proved",
   "theorems": [
    "C65_jacobian",
    "C65_gradient",
    "C65_dissipation",
    "C65_symmetric",
    "C65_definite"
   ],
   "note": "Real arithmetic instead of floating point; the cell loop is a list of quadrature points with arbitrary shape functions. C65_case: two grains at rest on one element."
  },
  {
   "property": "C66",
   "status": "partial",
   "theorems": [
    "C66_sintering",
    "C66_growth_partial",
    "C66_growth_refuted",
    "C66_growth_overrun_refuted",
    "C66_greenquist",
    "C66_greenquist_empty_refuted"
   ],
   "note": "Holds for the sintering operator (scalar mobility for M and dM) and for Greenquist's operator. Refuted for grain growth: a request of df or d2f gives fields with wrong names for two or more grains and, for df with four or more grains, writes beyond the buffer. Refuted for Greenquist's operator when the request contains an empty string."
  },
  {
   "property": "C67",
   "status": "partial",
   "theorems": [
    "C67_cahn_hilliard",
    "C67_allen_cahn_partial",
    "C67_blocked",
    "C67_views",
    "C67_labels_swapped_partial",
    "C67_advection_refuted",
    "C67_cut_off_refuted",
    "C67_labels_refuted",
    "C67_one_grain_refuted"
   ],
   "note": "Cahn-Hilliard block and the matrices of single order parameters agree with the linearised operator for scalar mobility. The Allen-Cahn block agrees only without cut-off and when no order parameter but the first moves: the code multiplies every velocity with the first component and ignores the cut-off. The labels max and avg are exchanged, one order parameter is refused. Tensorial mobility of the Cahn-Hilliard block and rows of constrained degrees of freedom are not covered."
  },
  {
   "property": "C68",
   "status": "partial",
   "theorems": [
    "C68_defect",
    "C68_jacobian_partial",
    "C68_void_row_refuted",
    "C68_potential_row_refuted",
    "C68_grain_row_refuted",
    "C68_initial_value_refuted",
    "C68_susceptibility",
    "C68_pure_phases"
   ],
   "note": "The product equals the derivative of the residual plus three explicit terms (C68_defect, every state and direction, scalar mobility, the two variables dphi_dt and dmu_dt taken as zero although the code leaves them without initial value). The three terms vanish in the cases of C68_jacobian_partial and are shown not to vanish in general: the barrier function zeta is not the antiderivative of dzeta, the stiffness of the void is used for the matrix in the row of the chemical potential, and the rows of the grains miss the change of the gradient coefficient. The tensorial mobility is not modelled."
  },
  {
   "property": "C69",
   "status": "partial",
   "theorems": [
    "C69_step",
    "C69_perturbation_size",
    "C69_unknown_step",
    "C69_fused",
    "C69_advection",
    "C69_plain",
    "C69_affine",
    "C69_error",
    "C69_homogeneous",
    "C69_untouched",
    "C69_fallback",
    "C69_grain_growth_refuted",
    "C69_negation_refuted",
    "C69_tangent",
    "C69_tangent_error",
    "C69_stale_entry_refuted",
    "C69_diagonal_refuted",
    "C69_fallback_range_refuted"
   ],
   "note": "The difference quotient, the restored state, the exactness for affine residuals and the error bound are proved for every legal order of the cell loop, for operators that accept the two functions. Refuted for grain growth: the trait does not see its function (template argument without default), so the range of the cell batches is taken as the range of entries. Refuted: the product with the negated source need not be the negated product (step pw). Refuted for the numeric tangent: entries whose derivative vanishes keep the value of an earlier assembly, and a vanishing diagonal entry becomes 1. Reals instead of floating point; the contract of the cell loop is deal.II's."
  },
  {
   "property": "C70",
   "status": "partial",
   "theorems": [
    "C70_product",
    "C70_product_error",
    "C70_block_product",
    "C70_reassembly",
    "C70_fixed_entries",
    "C70_fixed_columns_refuted",
    "C70_periodic_refuted",
    "C70_small_component_refuted",
    "C70_inverse_diagonal",
    "C70_small_diagonal_refuted",
    "C70_numbering"
   ],
   "note": "Proved without periodic boundaries and without entries below 1e-10 of the largest of a cell; with such entries the deviation is bounded by what was removed. Refuted: with periodic boundaries the matrix is assembled without the periodicity constraints (driver.h 641 against operator_base.h 446-449); a component that is 1e-10 times smaller than another loses its whole row; clear_row keeps the columns of fixed entries, so the product agrees with the matrix-free one only for sources that vanish there; diagonal entries below 1e-10 are replaced by 1. The interleaved numbering fits the system element only with at most one entry per mesh object (or one component). The rows of constrained entries are left to deal.II."
  },
  {
   "property": "C71",
   "status": "partial",
   "theorems": [
    "C71_hooke_partial",
    "C71_rotation",
    "C71_rotation_refuted",
    "C71_form",
    "C71_soft",
    "C71_operator",
    "C71_residual",
    "C71_no_loading_refuted",
    "C71_inelastic_partial",
    "C71_order_parameter_partial",
    "C71_derivatives_refuted",
    "C71_jump_refuted",
    "C71_trace",
    "C71_normal",
    "C71_order_refuted",
    "C71_voigt",
    "C71_load",
    "C71_indicator"
   ],
   "note": "Hooke's law proved in both directions for every branch; without a plane type only for symmetric arguments, because the gradient is not symmetrised (refuted: rotations cause stress). Form, operator and residual proved. Inelastic strains: derivatives proved for concentrations below one, divergences, and order parameters away from grain boundaries; elsewhere refuted, as are continuity and independence of the order of grains."
  },
  {
   "property": "C72",
   "status": "partial",
   "theorems": [
    "C72_pores_partial",
    "C72_pores_unrefined",
    "C72_dense_refuted",
    "C72_partition",
    "C72_boundary",
    "C72_sharp",
    "C72_smooth_partial",
    "C72_smooth_refuted",
    "C72_threshold",
    "C72_threshold_refuted",
    "C72_refined_refuted"
   ],
   "note": "Pores are the connected void regions, for all meshes without local refinement and all distributions; boundary pores and sharp contour data are exact. Refuted: locally refined meshes can join two pores depending on the order of cells; without any void cell the graph search is undefined; smoothed contour data depend on the distribution; cells crossed by the iso level or with large negative values are not void. Floating point is not modelled."
  },
  {
   "property": "C73",
   "status": "partial",
   "theorems": [
    "C73_coordination",
    "C73_partition",
    "C73_at_least_one",
    "C73_isolated_refuted",
    "C73_file",
    "C73_segments",
    "C73_format_refuted"
   ],
   "note": "The result is the mean over the grains inside the box that meet another grain, equal on all ranks and for all distributions; the file is the header and the concatenated streams for every order of the writes. Refuted: grains without neighbour do not enter the mean; a segment on several ranks has several entries in the file, one without points none. The grains of a cell are given (their lookup is C35); the length of the header is not reduced to 32 bits."
  },
  {
   "property": "C74",
   "status": "partial",
   "theorems": [
    "C74_bound",
    "C74_not_inverted",
    "C74_inside",
    "C74_partition_partial",
    "C74_partition_refuted",
    "C74_full_refuted"
   ],
   "note": "Each side bounds the support points above 0.49 of all interface cells and is attained by a support or sample point of such a cell; the box is ordered as soon as an interface cell exists and stays in the domain; it is independent of the distribution if no sample lies further out than the support points. Refuted: only one cell per rank and side is sampled, so the box depends on the distribution; cells filled up to the boundary of the domain are ignored and a box without interface cell is inverted. The values at the sample points are given; one coordinate direction at a time."
  },
  {
   "property": "C75",
   "status": "partial",
   "theorems": [
    "C75_min",
    "C75_defined",
    "C75_partition",
    "C75_range",
    "C75_output_serial",
    "C75_output_ghost",
    "C75_output_refuted",
    "C75_auto",
    "C75_auto_refuted",
    "C75_adjust",
    "C75_adjust_ends",
    "C75_adjust_refuted",
    "C75_view",
    "C75_view_growth",
    "C75_view_refuted"
   ],
   "note": "The estimate is exact and independent of the distribution, in [0,1] for values in [0,1]; the variant that writes the file agrees on a single rank. Refuted: with ghost or artificial cells that variant returns at most 0; a negative first quality makes the automatic threshold ask for a refinement at every step; a demanded quality above 1 keeps the adaptation loop running forever. The effect of the mesh adaptation on the quality is an arbitrary function of the depth. The blocks that enter are those from the third on: right for the sintering operators (C75_view), but grain growth has its order parameters from the first component on, so the first two do not count and with at most two grains the quality is always 1 (C75_view_growth, C75_view_refuted)."
  },
  {
   "property": "C76",
   "status": "partial",
   "theorems": [
    "C76_counters",
    "C76_frequency",
    "C76_fresh_partial",
    "C76_fresh_refuted",
    "C76_synchronous_refuted",
    "C76_resume_partial",
    "C76_resume_refuted",
    "C76_tuning_refuted",
    "C76_coarsening",
    "C76_coarsening_refuted"
   ],
   "note": "Counters and adaptation by frequency hold for all runs. The grain data are fresh without the adaptation after the first step, or if advection or the boundary conditions need them and consistency is not checked. Refuted: the adaptation after the first step is not followed by a tracker run (advection with the check, or output only); the frequency of the tracker applies besides the synchronous runs; a pending adaptation and the set up of the quality settings are lost in a checkpoint; with the check of consistency a reduced depth can survive without adaptation. The counters are not reduced to 32 bits; an inconsistency in the tracker run before a step aborts and is left out."
  },
  {
   "property": "C77",
   "status": "partial",
   "theorems": [
    "C77_mask",
    "C77_layout",
    "C77_assembles",
    "C77_assembles_block",
    "C77_elements",
    "C77_refuted"
   ],
   "note": "Proved for all elements whose shape functions are not negative at the points and vanish there only with their derivatives; C77_elements shows this for FE_Q of degree one and FE_Q_iso_Q1 in every dimension. Refuted for FE_Q of degree two with one point: the mask looks at values only, the derivatives couple more entries, and assembling fails. Objects are assumed to have the standard orientation; one process."
  },
  {
   "property": "C78",
   "status": "partial",
   "theorems": [
    "C78_outer",
    "C78_block_partial",
    "C78_part_refuted",
    "C78_single_amg_refuted",
    "C78_twenty_refuted",
    "C78_growth_refuted",
    "C78_cell_blocks_refuted",
    "C78_choice_refuted",
    "C78_cleared",
    "C78_missing"
   ],
   "note": "Proved by an invariant over all runs for the types without a block matrix in all parts, for BlockAMG with all matrices, and for BlockILU within the limits below. Refuted: BlockAMG or BlockILU for the first or third part (block matrices never assembled), BlockAMG with a single approximating matrix and at least two order parameters (read beyond the end), BlockILU with a single matrix and at least twenty order parameters (exception), BlockILU started with one order parameter when their number grows (exception), InverseBlockDiagonalMatrix for a part of several components (other blocks not written), three offered types for the second part (exception). Matrices are stamps; factorisations succeed."
  },
  {
   "property": "C79",
   "status": "partial",
   "theorems": [
    "C79_partition",
    "C79_partition_refuted",
    "C79_weights",
    "C79_symmetric",
    "C79_positive",
    "C79_diagonal",
    "C79_components",
    "C79_components_refuted"
   ],
   "note": "Proved for cells whose entries are all stored in the pattern. Refuted: with an entry outside the pattern (the sparsity patterns with a mask leave out such entries, see C77) the owner reads zero and another process the value of the next column, or beyond the end; and the component-wise preconditioner takes the number of components of the scalar finite element, which is one, so it inverts single entries only and not the blocks of the components of a node. Gauss-Jordan elimination is an oracle that gives an inverse; arithmetic is real."
  },
  {
   "property": "C80",
   "status": "partial",
   "theorems": [
    "C80_patch",
    "C80_cover",
    "C80_inside",
    "C80_once_partial",
    "C80_once_refuted",
    "C80_small_refuted",
    "C80_coarse_refuted",
    "C80_circle_partial",
    "C80_circle_refuted",
    "C80_behind_refuted",
    "C80_parameters_refuted",
    "C80_bounds_partial",
    "C80_bounds_refuted",
    "C80_minimum"
   ],
   "note": "Proved for cells longer than 1e-6 across the plane and without coarsening: corners, values, covering. Not overlapping is proved if the plane contains no face, and refuted otherwise (both neighbours are cut). Refuted: smaller cells give no vertices; with coarsening the values are read from the fine vector with coarse numbers and every cell counts as cell zero; the circle of a grain lies at twice the distance of its center from the plane, on the wrong side; a grain behind the plane has the square root of a negative number as radius; four numbers instead of three are written per grain; the upper bound of a section below the origin is the smallest positive number if a process has no part. Rational arithmetic; cells are boxes."
  },
  {
   "property": "C81",
   "status": "partial",
   "theorems": [
    "C81_exact",
    "C81_partition",
    "C81_anywhere_partial",
    "C81_translation",
    "C81_corner_refuted",
    "C81_smaller",
    "C81_small_step",
    "C81_current",
    "C81_mismatch"
   ],
   "note": "Proved for the quadrature points, and for all points of a cell without rotation. With rotation the points between the quadrature points may move further by at most the angular velocity times the distance (C81_anywhere_partial), and the corner of a square does so although the check passes (C81_corner_refuted). The lookup of a grain with the cut-off is C35. Real arithmetic; a vanishing volume is excluded."
  },
  {
   "property": "C82",
   "status": "partial",
   "theorems": [
    "C82_numbering",
    "C82_after_evaluation",
    "C82_printed",
    "C82_solution_partial",
    "C82_before_evaluation",
    "C82_tracked_again_partial",
    "C82_check_refuted",
    "C82_remap_refuted",
    "C82_beyond_refuted",
    "C82_coupled",
    "C82_failed"
   ],
   "note": "True right after an evaluation, and for every output of the solution of every run without check_inconsistency. With check_inconsistency the grain tracker renumbers the segments between the last evaluation and the output: the row of a grain can hold the data of another one or be read beyond the end; the outputs made by the grain tracker itself (remap, grains_inconsistency) have the same defect in all runs. _partial: runs without check_inconsistency; _tracked_again_partial: grains that keep their number."
  },
  {
   "property": "C83",
   "status": "partial",
   "theorems": [
    "C83_owner",
    "C83_result_partial",
    "C83_single",
    "C83_agreement_partial",
    "C83_order",
    "C83_negative_refuted",
    "C83_level_single",
    "C83_serial_partial",
    "C83_partition_refuted",
    "C83_levels_refuted"
   ],
   "note": "True for entries that only one process changes (C83_level_single, C83_serial_partial: equal to the run on one process for every order of the processes); true up to the tolerance for several processes that agree on an entry that was not negative. False if the entry was negative before and at least two processes set it to a positive value: the first step makes it positive, nothing clears it. Processes that disagree give another result than one process. _partial: the named conditions."
  },
  {
   "property": "C84",
   "status": "partial",
   "theorems": [
    "C84_imaging",
    "C84_order_parameters",
    "C84_blanks_refuted",
    "C84_gap_refuted",
    "C84_count_refuted",
    "C84_voronoi",
    "C84_touch_refuted",
    "C84_truncated_refuted",
    "C84_zero_refuted",
    "C84_domain",
    "C84_radius",
    "C84_radius_refuted",
    "C84_empty",
    "C84_stops"
   ],
   "note": "Proved: which files with commas are accepted and what becomes of them (C84_imaging, an equivalence), the result for complete Voronoi files for every order of the hash map and every valid colouring (C84_voronoi), the domain. False: the format with blanks that the comment documents, gaps in the order parameters, missing contours, files that break off, points with number zero, corners that are listed twice, radii of grains with several segments."
  },
  {
   "property": "C85",
   "status": "partial",
   "theorems": [
    "C85_phases",
    "C85_gradient",
    "C85_driving",
    "C85_flux",
    "C85_increment",
    "C85_defined",
    "C85_run",
    "C85_profile",
    "C85_bound_refuted"
   ],
   "note": "The phase concentrations, the gradients, the driving forces as derivatives of the free energy, the direction of the flux, the rest of the initial profile and its energy, and conservation in all runs of explicit methods are proved over the reals with an exact solve of the mass matrix. The range of the phases is refuted: a phase alone with a concentration below its equilibrium grows beyond one (C85_bound_refuted). Missing: rounding, the tolerance of the conjugate gradients, vectorization and constraints."
  },
  {
   "property": "C86",
   "status": "partial",
   "theorems": [
    "C86_edge",
    "C86_edge_found",
    "C86_edge_ordered",
    "C86_face",
    "C86_constrained",
    "C86_count",
    "C86_weight",
    "C86_periodic_refuted",
    "C86_weight_refuted"
   ],
   "note": "Soundness and completeness for edges and faces, the counts and the weights are proved for all forests, numberings and owned sets. Refuted: cells with hanging nodes across a periodic boundary are not reported (C86_periodic_refuted); factors below 1/10000 give the weight zero, and negative or large ones make the conversion to unsigned undefined (C86_weight_refuted). Missing: several processes and the signals that update the table."
  },
  {
   "property": "C87",
   "status": "partial",
   "theorems": [
    "C87_potential",
    "C87_jacobian",
    "C87_energy",
    "C87_mass",
    "C87_run",
    "C87_explicit",
    "C87_initial",
    "C87_steps",
    "C87_terminates",
    "C87_clock",
    "C87_output",
    "C87_restored",
    "C87_lag_refuted",
    "C87_overrun_refuted",
    "C87_time_refuted"
   ],
   "note": "Derivatives, mass, energy, bounds of the time step and termination are proved for all meshes and all outcomes of the nonlinear solver. Refuted: the time is advanced with the time step of the next step, so the recorded time is ahead of the simulated one (C87_time_refuted, C87_clock); a step is always solved beyond the end time (C87_overrun_refuted); the explicit scheme uses the potential of the step before, its first step does nothing and its files carry the time of the step before (C87_lag_refuted). Missing: inexact solutions of the linear and nonlinear problems, rounding."
  },
  {
   "property": "C88",
   "status": "partial",
   "theorems": [
    "C88_potential",
    "C88_jacobian",
    "C88_symmetric",
    "C88_energy",
    "C88_uniform",
    "C88_initial",
    "C88_uniform_run",
    "C88_background_refuted",
    "C88_one_refuted",
    "C88_vmult_refuted"
   ],
   "note": "Potential, derivative, symmetry, positivity and energy are proved for the implicit program with two phases on all meshes; uniform states for the explicit programs. Refuted: the residual of allen_cahn_impl.cc multiplies the driving force by the phase, so steps can raise the energy (C88_one_refuted); its vmult is not linear, ignores the linearisation point and reads gradients that were never evaluated (C88_vmult_refuted); 0 is the unstable state of the potential, so the region outside of the particles grows into the phase (C88_background_refuted). Missing: energy of the explicit programs, inexact solvers, the branch with SUNDIALS, rounding."
  },
  {
   "property": "C89",
   "status": "partial",
   "theorems": [
    "C89_plain",
    "C89_bicgstab",
    "C89_run",
    "C89_exception_refuted",
    "C89_count_refuted",
    "C89_create",
    "C89_relaxation",
    "C89_relaxation_refuted",
    "C89_direct",
    "C89_snes_age",
    "C89_snes_first_refuted",
    "C89_snes_limit_refuted",
    "C89_monitor_refuted",
    "C89_strategy"
   ],
   "note": "Proved for all behaviours of the wrapped solvers (oracles). Refuted: a foreign exception leaves the limit of Bicgstab in the control (C89_exception_refuted; fatal in the driver anyway); steps of a Bicgstab that broke down early are counted in full (C89_count_refuted); Relaxation never looks at the tolerance (C89_relaxation_refuted); SNES with threshold 0 starts without setup (C89_snes_first_refuted), fails when it needs exactly the allowed iterations (C89_snes_limit_refuted) and its monitor reads blocks of an empty vector at the default verbosity (C89_monitor_refuted). Missing: the solvers of the libraries, several processes, rounding."
  },
  {
   "property": "C90",
   "status": "partial",
   "theorems": [
    "C90_options",
    "C90_path",
    "C90_rejected",
    "C90_quoted_refuted",
    "C90_ignored_refuted",
    "C90_search_refuted",
    "C90_start",
    "C90_noargs_refuted",
    "C90_negative_refuted",
    "C90_total_refuted",
    "C90_debug_refuted",
    "C90_word"
   ],
   "note": "Proved for all argument lists with unquoted values. Refuted: the closing quote of a quoted value is kept (C90_quoted_refuted); arguments without dashes are dropped silently (C90_ignored_refuted); the tail of a malformed option is taken as an option (C90_search_refuted); argv[1] is read without arguments (C90_noargs_refuted); negative numbers of particles are accepted (C90_negative_refuted); the printed product wraps (C90_total_refuted); debug mode skips the check of the compiled range (C90_debug_refuted). Missing: the parameter handler of deal.II, atoi and atof, the checks of degrees."
  },
  {
   "property": "C91",
   "status": "partial",
   "theorems": [
    "C91_expand",
    "C91_operators",
    "C91_scalar_refuted",
    "C91_mask",
    "C91_sign_refuted",
    "C91_energy"
   ],
   "note": "Proved for all maxima and numbers. Refuted: the message for classes that can decay to a scalar names a range from 1 although it begins at 2, and a model of grain growth with one order parameter is accepted by the runner but has no operation (C91_scalar_refuted); the sign bit of a mask is not found (C91_sign_refuted). Missing: the operations themselves (other claims), the preprocessor."
  },
  {
   "property": "C92",
   "status": "partial",
   "theorems": [
    "C92_order",
    "C92_listing",
    "C92_total",
    "C92_invariant",
    "C92_empty_refuted",
    "C92_particles",
    "C92_particles_refuted",
    "C92_tie_refuted",
    "C92_empty_reached"
   ],
   "note": "Proved for every result std::sort may have. Refuted: grains with the same center may be listed in either order (C92_tie_refuted); with two grains or more, a grain without segments is undefined behaviour (C92_empty_refuted); every process passes all grains to insert_global_particles, so the particle file has every segment once per process (C92_particles_refuted, by the documentation of deal.II). Missing: the text of a representation, NaN as a center, the other VTU output."
  },
  {
   "property": "C93",
   "status": "partial",
   "theorems": [
    "C93_facets",
    "C93_partition",
    "C93_alone",
    "C93_two",
    "C93_half_refuted",
    "C93_boxes_refuted",
    "C93_degree_refuted",
    "C93_ids",
    "C93_zero_refuted"
   ],
   "note": "Proved for every result of the marching cube algorithm, C93_facets for linear elements and C93_two for complementary grains at the level one half. Refuted: half of the area is counted if only one of the two grains has a contour (C93_half_refuted); with quadratic elements the test before the extraction loses facets (C93_degree_refuted); facets at the common face of two boxes count twice (C93_boxes_refuted); facets without a particle get the number of grain 0 (C93_zero_refuted). Missing: the marching cube algorithm itself, coarsening of the mesh, writing of files."
  },
  {
   "property": "C94",
   "status": "partial",
   "theorems": [
    "C94_fluxes",
    "C94_rate",
    "C94_conserved",
    "C94_dissipation",
    "C94_tensorial_refuted",
    "C94_advection_refuted",
    "C94_cut_refuted",
    "C94_negative_refuted"
   ],
   "note": "Proved for the scalar mobility without advection and cut-off; refuted with the tensorial mobility (factor 1001/1000 of the surface part), with advection and with the cut-off. The integral and the dissipation hold for both mobilities, the dissipation of the grain boundaries for non-negative order parameters only. The solve is exact and constraints are resolved in the shape functions."
  },
  {
   "property": "C95",
   "status": "partial",
   "theorems": [
    "C95_origin",
    "C95_section",
    "C95_particle",
    "C95_primary",
    "C95_rigid_section",
    "C95_rigid_particle",
    "C95_rigid_domain",
    "C95_uniform",
    "C95_coarse_refuted",
    "C95_mask",
    "C95_mask_refuted"
   ],
   "note": "Proved: the closest vertex, the restrained sets on all meshes, their position on meshes of equal boxes; the section removes all rigid motions exactly if all directions are in the mask, the section within a particle exactly if at most one is missing, the clamped domain always. Refuted: position on meshes with cells of two sizes, and the mask of the driver, which is not initialised. The cell search, the solution and the mapping of degrees of freedom are oracles."
  },
  {
   "property": "C96",
   "status": "partial",
   "theorems": [
    "C96_header",
    "C96_history",
    "C96_flexible",
    "C96_inflexible",
    "C96_option_refuted",
    "C96_partition_refuted",
    "C96_divisions_refuted",
    "C96_blocks_refuted",
    "C96_killed",
    "C96_killed_refuted"
   ],
   "note": "Proved: the head of the file, the number of saved vectors and their ghost values, both kinds of files with the same option in both runs, and the kill at any moment if more than one name is in use. Refuted: another value of flexible_output in the restarted run, meshes given by divisions with global refinements, another number of blocks per vector, and a kill with a single name. What deal.II does with data attached to cells and with the mesh file is described by its documentation only."
  },
  {
   "property": "C97",
   "status": "partial",
   "theorems": [
    "C97_domain",
    "C97_section_refuted",
    "C97_ranges",
    "C97_vectors",
    "C97_ranges_refuted",
    "C97_boxes"
   ],
   "note": "Proved for the file of the domain, the ranges of vectors and tensors and the names of the control boxes. Refuted for sections of three-dimensional domains: the wrapper around the solution of the section writes into reserved storage and keeps the size zero, so no field is written and no contour drawn. Writing of files is not modelled."
  },
  {
   "property": "C98",
   "status": "partial",
   "theorems": [
    "C98_names",
    "C98_restored",
    "C98_totals",
    "C98_recursion",
    "C98_fixed_refuted",
    "C98_distinct",
    "C98_distinct_refuted",
    "C98_stages_refuted",
    "C98_stage_variable",
    "C98_collection"
   ],
   "note": "Restoration of names and active sections, totals, recursion and the collection of timers are proved for all programs. Refuted: names containing two colons can make two chains of callers share a section, a fixed text fails when entered again from within, and the stages of building a problem (driver.h 179, 304, 505, 615, 622, 651, 679) use MyScope without a variable, so they are not timed. deal.II's TimerOutput is modelled by its list of active sections and its laps."
  },
  {
   "property": "C99",
   "status": "partial",
   "theorems": [
    "C99_levels",
    "C99_kept",
    "C99_graded",
    "C99_steps_add",
    "C99_coarse",
    "C99_terminates",
    "C99_vertices",
    "C99_lost_refuted",
    "C99_small_again",
    "C99_terminates_refuted",
    "C99_overhead",
    "C99_histogram",
    "C99_histogram_refuted",
    "C99_counter",
    "C99_counter_refuted",
    "C99_small"
   ],
   "note": "Coarsening, termination, the estimate and the counting are proved. Refuted: features between the vertices of coarsened cells vanish; the loop never ends for a mesh keeping 2^32 or more cells since n_active_cells is 32 bits wide; without any grain the first count is read from an empty vector; displacement blocks count as grains. Distribution over ranks, hanging nodes and elements of higher degree are not modelled."
  }
 ]
}
