# Formal model of hpsint in Rocq - design

Everything lives in `rocq/theories`.  For a topic `X` there are up to four files:

* `XModel.v`  - the model: total, computable Gallina functions, each with a
  comment citing the file and lines in /repo it was read from and every
  simplification made;
* `XSpec.v`   - the specification (only where it is not already expressible
  with the standard library), written without the helpers of the model;
* `XProofs.v` - lemmas;
* `XProps.v`  - the theorems of `MANIFEST.json`, each followed by
  `Print Assumptions` and by a concrete instance (`Example` or `..._applies`).

A statement that is true of the code is named after the property.  A statement
of which only a part holds or is modelled ends in `_partial`.  Where the code
violates the property, `..._refuted` proves a concrete counterexample in the
model, and the positive theorem states the extra hypothesis under which the
property does hold.

## Trusted base

* Coq 8.16.1's kernel and `vm_compute`.
* The axioms of the standard library listed below, no others.
* The reading of the C++ code by hand.  The model is not extracted from or
  compared with the running program.
* Floating point: `double` is modelled by `Q` or `R` (exact arithmetic, no
  rounding, overflow), except where NaN matters (nonlinear solver, limiting of
  values), where a number is `option Q` or similar with IEEE comparison
  semantics for NaN.  One lane of a vectorized array is one number.
  `unsigned int` is `nat`/`Z`; wrap-around is modelled only where a comment says
  so (mesh levels, `MeshFlagsModel`).
* deal.II, boost, MPI, SUNDIALS, Trilinos, the file system and the linear
  solvers are not modelled.  Where the logic depends on them they are oracles or
  relations, universally quantified in the theorems, with the documented
  contract as a hypothesis (for example: cell loop, connected components, graph
  colouring, R-tree queries, the order in which boost hands out edges,
  `MPI_Allreduce`, `MPI_Exscan`).

### Print Assumptions per theorem

Abbreviations: F = `ClassicalDedekindReals.sig_forall_dec`,
N = `ClassicalDedekindReals.sig_not_dec`,
E = `FunctionalExtensionality.functional_extensionality_dep`,
C = `Classical_Prop.classic`.  All four belong to Coq's standard library: F, N
and E come with its real numbers (`Reals`), C with its theorems about derivatives
and continuity.  They are used by theorems about real numbers only; the only
direct use in the development is E, to identify vectors that agree in every entry.
The checker may report further constants of the standard library's real number
module that a `Require` brings in; `Print Assumptions` of the theorems lists those
below and nothing else.

Closed under the global context: `ArkodeProps`, `BatchProps`, `BlockHeapProps`, `BlockVectorProps`, `BoundaryAreaProps`, `BoxFilterProps`, `CellOutputProps`, `CheckpointProps`, `ClampProps`, `CoarsenProps`, `CommandLineProps`, `ConnectProps`, `ContactsProps`, `ControlBoxProps`, `CoordProps`, `CoupledMatrixProps`, `CoupledOutputProps`, `CsvProps`, `CutoffProps`, `DebugValuesProps`, `DensificationProps`, `DetectProps`, `DispatchProps`, `DistributionProps`, `DivisionsProps`, `FieldOutputProps`, `FloodProps`, `GhostProps`, `HangingProps`, `InnerProps`, `IntegralsProps`, `LabelsProps`, `LimitProps`, `LinearSolverProps`, `LookupProps`, `MemoryProps`, `MeshFlagsProps`, `MicroFileProps`, `NeighborProps`, `NewtonProps`, `OptionsProps`, `OriginProps`, `PackPropProps`, `PackProps`, `ParticleInfoProps`, `PeriodicCellsProps`, `PiecewiseProps`, `PoreProps`, `PrintGrainsProps`, `QualityProps`, `ReassignProps`, `RemapOldProps`, `RemapProps`, `ResultsFileProps`, `ScheduleProps`, `ScopeProps`, `SectionProps`, `SerialProps`, `ShrinkProps`, `ShrinkScriptProps`, `StatsProps`, `StitchProps`, `TableProps`, `TimeDataProps`, `TimeLoopLateProps`, `TimeLoopProps`, `TimeSchemesProps`, `TimerProps`, `TrackDataProps`, `TrackProps`, `TransferProps`, `VmultProps`, `WaveDistProps`, `WavefrontProps`.

| File | Axioms | Theorems |
|---|---|---|
| `AllenCahnProps` | EF | all others |
| `AllenCahnProps` | EFN | `C88_initial` |
| `AssembleProps` | EF | all others |
| `AssembleProps` | closed | `C70_numbering` |
| `CahnHilliardProps` | EF | all others |
| `CahnHilliardProps` | CEFN | `C87_initial` |
| `CloudProps` | EFN | all others |
| `CloudProps` | EF | `C38_domain_tight_partial`, `C38_domain_tight_refuted` |
| `ContourProps` | EF | all others |
| `ContourProps` | CEF | `C58_box` |
| `ContourProps` | CEFN | `C58_box_filter`, `C58_value` |
| `ContourProps` | EFN | `C58_distance`, `C58_nearest`, `C58_repeated_end_refuted`, `C58_repeated_point_refuted` |
| `CourantProps` | EFN | all others |
| `CourantProps` | closed | `C81_current` |
| `EllipsoidProps` | EFN | all |
| `ExplicitProps` | EF | all |
| `FluxProps` | EFN | all |
| `ForceProps` | EFN | all others |
| `ForceProps` | CEFN | `C33_where` |
| `ForceProps` | EF | `C34_zero_at_stored_centre_partial`, `C34_stored_centre` |
| `FreeEnergyProps` | EF | all others |
| `FreeEnergyProps` | EFN | `C29_nonnegative`, `C29_material_parameters` |
| `GrainDistProps` | EFN | all others |
| `GrainDistProps` | EF | `C46_built_grain` |
| `GrainGrowthProps` | EF | all |
| `GrainProductProps` | EF | all |
| `GrainTableProps` | CEFN | all |
| `GreenquistProps` | EF | all |
| `InitialProps` | EFN | all others |
| `InitialProps` | EF | `C39_microstructure`, `C39_concentration`, `C39_components` |
| `JfreeProps` | EFN | all others |
| `JfreeProps` | CEFN | `C69_error`, `C69_tangent_error` |
| `JfreeProps` | EF | `C69_tangent`, `C69_stale_entry_refuted`, `C69_diagonal_refuted` |
| `KksProps` | EF | all others |
| `KksProps` | EFN | `C85_profile` |
| `MobilityProps` | EFN | all others |
| `MobilityProps` | CEFN | `C55_arrhenius`, `C55_diffusion_monotone` |
| `MobilityProps` | EF | `C30_nonnegative`, `C30_derivatives`, `C30_linearised_flux`, `C30_outside_refuted` |
| `MotionProps` | EF | all others |
| `MotionProps` | EFN | `C53_rodrigues`, `C53_rotation`, `C53_composition`, `C53_long_axis_refuted` |
| `NeckProps` | EFN | all |
| `OperatorEnergyProps` | EFN | all |
| `OperatorMassProps` | EFN | all |
| `OperatorProps` | EFN | all |
| `PackingProps` | EFN | all others |
| `PackingProps` | closed | `C37_circle`, `C37_hypercube` |
| `PreconProps` | EFN | all others |
| `PreconProps` | closed | `C67_views` |
| `PreconProps` | EF | `C67_labels_swapped_partial`, `C67_labels_refuted`, `C67_one_grain_refuted` |
| `ResidualReportProps` | EFN | all others |
| `ResidualReportProps` | closed | `C118_groups`, `C118_silent`, `C118_additional_refuted` |
| `SchwarzProps` | EFN | all others |
| `SchwarzProps` | EF | `C79_partition_refuted`, `C79_components`, `C79_components_refuted` |
| `SchwarzProps` | F | `C79_partition` |
| `SparsityProps` | EF | all others |
| `SparsityProps` | closed | `C77_layout` |
| `StressProps` | EF | all others |
| `StressProps` | EFN | `C71_inelastic_partial`, `C71_order_parameter_partial`, `C71_derivatives_refuted`, `C71_jump_refuted`, `C71_trace`, `C71_normal`, `C71_order_refuted` |
| `TransformProps` | EFN | all others |
| `TransformProps` | EF | `C108_limits`, `C108_extract` |

## Undefined behaviour

Out-of-range accesses, division by zero, dereferencing `end()` and reads of
uninitialised values are distinct outcomes of the model (`None` or a dedicated
constructor), never silently replaced by a default.  Two exceptions, both stated
where they occur: `has_stationary_equations` of the explicit scheme and
`dphi_dt`/`dmu_dt` of the grand potential operator (its own refutation shows the
effect).

## What is modelled, per property

| Id | Model | Method |
|----|------------------|------------------|
| C01, C02 | `TimeSchemesModel`: effective order and weights of BDF1-3 over Q | field identities for all step sizes and polynomials; case analysis on zero padding |
| C03, C04 | `TimeDataModel`: step-size vector as list with UB, save/load as archive (list) operations | induction over operation histories; refutation for order 0 by computation |
| C05, C08, C48 | `HistoryModel`: solution history, rollback, extrapolation | invariant by induction over attempts |
| C05 - C11 | `TimeLoopModel`: driver loop with an oracle for solver, mesh adaptation and tracker | invariants; termination by a measure; refutations by computation |
| C12, C13 | `BlockVectorModel`: list of blocks | list equations, permutations; refutation by computation |
| C14, C15, C51 | `NewtonModel`: both solvers, norms with NaN from an oracle | induction over iterations |
| C16, C17 | `StitchModel`: ranks, bulk-synchronous rounds, graph components | invariant + reachability, fixpoint |
| C18 | `FloodModel`: flood fill over an arbitrary adjacency | invariant of the stack; refutation for hanging nodes |
| C19, C52 | `ParticleInfoModel`: per-rank accumulation | sums over permutations/partitions |
| C20, C21 | `TransferModel`: `transfer_grain_ids` | invariant over the loops; refutation |
| C22 | `TrackModel` | invariant over histories |
| C23 | `ReassignModel`: greedy colouring, compaction, fast path | induction on the colouring loop; UB refutations |
| C24, C25 | `RemapModel`: remap graph, temporary stack, execution | topological order + execution semantics |
| C26 | `DivisionsModel` | arithmetic, induction on the search loops |
| C27 | `BoxFilterModel` | order/field reasoning over Q |
| C28, C29, C49 | `FreeEnergyModel` over R (derivatives) | `derivable_pt_lim` of polynomials in n variables, nra |
| C30, C31, C55 | `MobilityModel` over R | same |
| C32 | `PiecewiseModel` over Q | sortedness invariant, order reasoning |
| C33, C34 | `ForceModel`, `WeightProofs` | antisymmetric sums over cells and ranks; refutations |
| C35 | `LookupModel` | list indices; refutations |
| C36 | `CutoffModel` | prefix sums; out-of-bounds refutation |
| C37 | `PackingModel` | modular arithmetic, geometry |
| C38, C39, C57 | `InitialModel` with `CloudProps`, `NeckProps`, `InitialProps` | order and distance reasoning; refutations |
| C40 | `CsvModel` | induction on strings |
| C41 | `SerialModel` | permutations, offsets; refutation |
| C42 | `LimitModel` | lists |
| C43 | `TimerModel` | induction over call histories |
| C44 | `MeshFlagsModel` | case analysis for all cells, invariant over adaptations |
| C45 | `ExplicitModel` | field identities |
| C46 | `GrainDistModel`, `VecGeom` | minimum over lists, triangle inequality |
| C47 | `ControlBoxModel` | linear arithmetic; refutation |
| C50 | `OriginModel` | induction on the list of segments |
| C53 | `MotionModel` | matrix identities over R |
| C54 | `DetectModel` | components contract |
| C56 | `EllipsoidModel` | invariants of the iteration, quadratic forms |
| C58 | `ContourModel` | winding/parity by induction on the contour |
| C59, C60 | `WavefrontModel` on the meshes of `FloodModel` | invariants of the rounds, shortest paths; refutations |
| C61, C62, C63 | `OperatorModel`: residual and product at quadrature points, scatter and gather with arbitrary shape functions | directional derivative of the residual entry by entry; sums of test functions; rate of the energy |
| C64 | `VmultModel` | equations over entries; refutations |
| C65 | `GrainGrowthModel` | directional derivative; energy |
| C66 | `FieldOutputModel` | lists of names and quantities; refutations |
| C67 | `PreconModel` | equality with parts of the linearised operator; refutations |
| C68 | `GreenquistModel` | directional derivative with explicit defect; refutations |
| C69 | `JfreeModel` | invariant over all orders of the cell loop (typestate per entry); mean value theorem |
| C70 | `AssembleModel` | sums over cells and constraints; refutations |
| C71 | `StressModel` | algebra of the constitutive law against the compliance form; sums of squares; derivatives; refutations |
| C72 | `PoreModel` | refinement to the flooding of C18 on a mesh with one marker value; components; sets over ranks; refutations |
| C73 | `CoordModel` | ordered maps and sets as lists with invariants; merge of received vectors; file contents by position, for all permutations of the writes; refutations |
| C74 | `ShrinkModel` | fold invariants for both sides at once through the order of the side; refutations by two- and three-cell meshes |
| C75 | `QualityModel` | extremum folds; oracle for the mesh adaptation; induction over the passes; refutations |
| C76 | `ScheduleModel` | event traces of arbitrary runs; invariants over all answers; refutations by short runs |
| C77 | `SparsityModel` | C77_mask and C77_layout by induction over points and objects; C77_assembles by refinement of the assembly of C70 with a matrix that takes values at its pattern only; C77_refuted by a one-cell mesh |
| C78 | `InnerModel` | C78_outer and C78_block_partial by an invariant over runs of the driver; the refutations by computing runs |
| C79 | `SchwarzModel` | C79_positive by the form of every block through the embedding of the cell vector; C79_partition by a search lemma on sorted rows |
| C80 | `SectionModel` | C80_patch by the twelve lines of a cell, C80_cover and C80_once_partial through the corners of the rectangles |
| C81 | `CourantModel` | C81_exact by induction over the loops with their early ends; C81_small_step by a minimum over the finitely many conditions |
| C82 | `StatsModel` | invariant over runs of the driver: data in force belong to the numbering in force; sums over cells by induction |
| C83 | `GhostModel` | protocol of four reductions analysed entry by entry, order independence by permutations, refinement of the serial run by induction over the processes |
| C84 | `MicroFileModel` | refinement of the readers to a relation between text and grains, over the parser of C40; colouring as an oracle with a contract; hulls by induction |
| C85 | `KksModel` | algebra and derivatives over R for the point functions; sums over nodes and points for an increment; induction over the stages of the tableau and over the steps for a run |
| C86 | `HangingModel` | coordinates of lines and cells; invariant of the table of lines (every entry is a cell with a coarser or equal edge); induction over the difference of the levels along the run over the lines |
| C87 | `CahnHilliardModel` | sums over points; testing the residual with the potential and the increment gives the energy estimate (convexity defect of the double well at most 1/2, dt*M <= 4*kappa); potential function 2^failures for termination |
| C88 | `AllenCahnModel` | testing the residual with the increment (convexity defect of the double well at most 1); quadratic form at each point; monotone sequence with a lower bound on its increments |
| C89 | `LinearSolverModel` | case analysis over the behaviour of the oracles, induction over runs of solves, sweeps and nonlinear iterations; layout lemmas of C64 for the direct solver |
| C90 | `CommandLineModel` | the regular expression as a function on characters; induction over characters and arguments; case analysis over the modes |
| C91 | `DispatchModel` | switch over an enumerated range; bitwise reasoning on Z; unsigned subtraction modulo 2^32 |
| C92 | `PrintGrainsModel` | relation for all results of std::sort; uniqueness of strictly sorted permutations |
| C93 | `BoundaryAreaModel` | oracle for the marching cube algorithm; finite sums; invariance of sums under permutation |
| C94 | `FluxModel` | sum of the four fluxes against the flux of the residual at a point (loops over pairs by induction), then linearity of the mass matrix; dissipation with Cauchy-Schwarz |
| C95 | `ClampModel` | membership in the union over the cells by induction; rigid motions by differences between neighbours of the vertex, remaining motions by construction; lattice argument for equal boxes |
| C96 | `CheckpointModel` | bytes of the head by arithmetic; the loop that shifts the history by induction with the ghost state; chunks of the vector file by induction over processes and blocks; names modulo the limit |
| C97 | `ResultsFileModel` | names at every position by induction over the loops; ranges as longest runs by induction; counting for the vector of displacements; injectivity of decimal numbers |
| C98 | `ScopeModel` | induction over programs of nested blocks; strictly growing length of the joined names; invariant of the set of timers |
| C99 | `CoarsenModel` | refinement trees; one step of flags equals a cut by structural induction, composed over steps; shrinking relation with a strictly decreasing count; histogram by fold invariants |
| C100 | `OptionsModel` | Splitting of the patterns proved correct for all lists of words; invariant over all entries read (last one decides); table of each option proved complete and injective; case analysis over the words of the preconditioners; arithmetic for the element. |
| C101 | `PackModel` | Induction over the points with explicit lists for the quick loops; range lemmas for incomplete points; pointwise description of gathering and scattering for the cell loops; agreement by comparing all entries. |
| C102 | `ArkodeModel` | Induction over the components for taking out and putting back the stationary blocks (using C12); pointwise description of the update of the stationary blocks; induction over the sequence of calls; computed witnesses for the refuted parts. |
| C103 | `BlockHeapModel` | Heap of blocks with pointers; induction over the blocks with the statement that blocks not held stay as they are; computed witnesses for the refuted parts. |
| C104 | `RemapOldModel` | The scheduling of C25 generalised to an arbitrary relation of dependency; the loops over cells as pointwise updates, induction over the moves at one degree of freedom. |
| C105 | `PackPropModel` | Case analysis of the branches against the primitive of the cross section; telescoping sum over the slices. |
| C106 | `ConnectModel` | induction over bridges and over paths of contacts |
| C107 | `ContactsModel` | induction over segments; sorted duplicate-free lists are unique; pairing of directed contacts |
| C108 | `TransformModel` | fold invariants for the limits, algebra of rotation matrices |
| C109 | `TrackDataModel` | loop invariant over the rows of a column; induction over folders |
| C110 | `LabelsModel` | induction over the counting loops; prefix-free code checked over all characters |
| C111 | `BatchModel` | induction over the job list with characterisation of locks, files and submissions |
| C112 | `BatchModel` | induction over passes and queue lines |
| C113 | `ShrinkScriptModel` | induction over rows and quantities; slices characterised by filters |
| C114 | `PeriodicCellsModel` | characterisation of the collected sets by induction over cells, faces and ranks; composition with C54_groups |
| C115 | `IntegralsModel` | induction over grains, points, lanes, batches, processes and labels; column names split at the last underscore |
| C116 | `CoupledMatrixModel` | specifications of the saving and restoring loops, composed with the interleaving of blocks |
| C117 | `GrainProductModel` | loop specifications of the free energy, real arithmetic |
| C118 | `ResidualReportModel` | induction over groups, blocks and lines; square roots of sums of squares |
| C119 | `TableModel` | table as columns in order of first use, induction over the outputs, injectivity of the names over regions |
| C120 | `DensificationModel` | induction over folders and points, rounding and ceiling of rationals, double counting of contacts |
| C121 | `DistributionModel` | invariant of the loop over the tables: decomposition of what was read into runs and gaps; floor arithmetic and counting for the bins |
| C122 | `TimeLoopLateModel` | induction over the attempts of a run in an extension of the model of the time loop |
| C123 | `CellOutputModel` | induction over the cells behind the one found; last-write lemma for the assignments; uniqueness of dim*ig+d |
| C124 | `CoupledOutputModel` | case analysis on the requested fields and the dimension with symbolic vectors; field identities |
| C125 | `MemoryModel` | nested induction over containers; induction over the depth of preconditioners; field identities |
| C126 | `DebugValuesModel` | nodes are at least 1 apart, so at most one is close; case analysis on the nodes |
| C127 | `GrainTableModel` | writes of a loop over an array of zeros; volumes of balls increase with the radius |

The lines of the code behind each definition are in the comments of the model
files, together with what is left out.

## Parts of the code that are not modelled

* the finite element library and everything numerical below it: quadrature,
  interpolation, mesh refinement and its smoothing, hanging nodes except where a
  property is about them, multigrid, algebraic preconditioners, linear solvers;
* `remap_old` of the grain tracker, the exchange of ghost values during remapping;
* the output of files (vtk, tables), the parameter parser, the command line;
* the elastic operators (`OperatorSolid`, St. Venant-Kirchhoff, inelastic
  strains) except for the constrained entries in C64;
* the KKS application `applications/grand_potential/kks.cc`, the structural and
  the heat transfer applications;
* NOX, SNES and ARKODE back ends;
* timing, memory, deadlocks inside MPI.

## Findings

Deviations of the code from the stated properties, each with a proved
counterexample in the model (`..._refuted`); details in the notes of
`MANIFEST.json`.

| Id | Finding |
|----|---------|
| C04 | explicit schemes (order 0): the reloaded time data hold no step size, the restart reads it out of range |
| C05 | the option check_inconsistency leaves one old solution un-remapped |
| C06, C10 | an initial step larger than the interval overshoots; start times other than 0 |
| C09, C48 | restart with changing step sizes or pending work differs; the predictor uses a zero vector after a restart |
| C13 | shrinking with displacement blocks cuts the last displacement; growth puts new blocks behind them |
| C15 | a user check that answers "iterate" defeats the iteration limit |
| C17 | graph variant of the stitching without particles: undefined behaviour |
| C18, C59 | all children of a refined neighbour are flooded/searched, so regions that do not touch are joined or recorded |
| C19, C52 | maximum value: assignment instead of maximum; remote points of several ranks are added |
| C21 | `tracking.h` 170 does not record the distance of the candidate |
| C22 | the greatest id is given away again after its grain vanished |
| C23 | the limit on order parameters is checked only when a colouring is made; empty set of grains is undefined behaviour |
| C24 | values below the detection threshold at shared degrees of freedom are lost in the remapping |
| C26, C27 | undefined conversions, no subdivisions for limit 1; cell containing the box is filtered |
| C29 | energy negative for gamma_gb > 2 gamma_s |
| C30, C61 | the mobility is cut off outside of [0,1] but its derivative is not |
| C31 | derivative of bulk and vapour part four times too large; projector scale missing |
| C32 | a table with one pair and linear continuation reads beyond the end |
| C33 | forces on cells without a tracked segment are dropped on one side only |
| C34 | in 2D the induced rotation is against the torque; the stored centre is a multiple of the centre |
| C35 | index mapped twice with the cut-off; weighted model: tables are cleared after filling |
| C36 | more order parameters than lanes or extra blocks: access out of range; gradient stride |
| C38, C39, C57 | upper bound from the smallest positive number; inside/outside exchanged; order dependence; necks |
| C41 | offsets depend on the number of fields read |
| C43 | call intervals below one: remainder by zero |
| C44 | refinement depth 0 wraps around |
| C45 | stages with stationary equations |
| C46 | wavefront distances are one-sided |
| C47 | padding counted once in the test but twice in the box |
| C50 | prefer_growing does not prefer growing grains |
| C53 | documented rotation tensor is the transposed one |
| C56 | relative convergence test, zero radii, axes not serialized |
| C58 | repeated contour points |
| C60 | collisions at process borders are dropped |
| C64 | plain vectors with several components; coupled and elastic operators |
| C66 | names and sizes of output fields of grain growth |
| C67 | all velocities multiplied with the first component; max/avg exchanged; cut-off ignored |
| C68 | zeta against dzeta, void stiffness for the matrix, missing term, uninitialised variables |
| C69 | grain growth with the Jacobian-free product uses the range of cell batches as range of entries; stale entries and unit diagonal in the numeric tangent |
| C70 | matrices are assembled without the periodicity constraints; rows of components with small entries are lost; fixed rows keep their columns; small diagonal entries are replaced by one; interleaved numbering needs one entry per object |
| C71 | without a plane type the gradient is not symmetrised: rotations cause stress; residual without loading integrates values that were not submitted; derivatives of the inelastic strain rate on grain boundaries and for concentrations above one are wrong; the rate jumps, depends on the order of three grains and has the three-dimensional factor in two dimensions |
| C72 | on locally refined meshes two pores can be taken as one, depending on the order of the cells; without a void cell (dense body) a reference into an empty vector is formed; with smoothing zeros written to ghost entries are neither sent nor refreshed, so that ranks see different values at the same DoF and the contours depend on the distribution; a cell crossed by a steep interface is not captured as void, against the comment; the norm takes absolute values, so that undershoots count as solid |
| C73 | grains without contact are not counted in the average coordination number, which is therefore zero or at least one; the contour file has several entries for a segment that lies on several ranks, against its documented format (and the file is never closed) |
| C74 | the box of the shrinkage ignores cells that are completely filled, so a body touching the domain boundary is cut and a filled domain gives an inverted box; one cell per rank and side is sampled, so the result depends on the partition |
| C75 | output_mesh_quality_and_min takes the minimum over ghost and artificial cells too, whose entries are zero, so it reports 0 in every parallel run; the automatic threshold is above a negative quality; the loop that raises the refinement depth has no upper limit |
| C76 | the mesh adaptation after the first step leaves stale grain data; flags for pending adaptation and the quality set up are not in the checkpoint (the checkpoint of step 1 is written before the quality is set up); the decision at 2302-2317 is a dead store, so synchronous tracking also runs by frequency; a depth reduced in a step that fails its consistency check stays reduced without adaptation |
| C77 | dof_tools.h 47-53: the mask is made from the values of the shape functions only. With an element whose functions vanish at the points while their derivatives do not (FE_Q of degree two with one Gauss point) the entries of the gradient terms are missing and the assembly fails. |
| C78 | sintering/preconditioners.h 1261-1283 assembles only the system matrices, so BlockAMG and BlockILU in the first or third part find no matrix; lac/preconditioners.h 718-726 (BlockAMG) reads precondition_amg[b] for every block although one matrix is stored with the const, max and avg approximations; 880 limits BlockILU with one matrix to 19 order parameters; 836 and 850 fix single_block at construction, so a run started with one order parameter throws when a second one appears; 376-384 (InverseBlockDiagonalMatrix) leaves all blocks but the first untouched in release mode. |
| C79 | lac/preconditioners.h 316-598: rows received from other processes are searched with lower_bound and the column found is not compared with the column asked for, so an entry outside the pattern gives a neighbouring value or a read beyond the end, where the owner of the row has zero (C79_partition_refuted); 240 and 285: the number of components is that of the scalar finite element, so the component blocks are single entries (C79_components_refuted) |
| C80 | projection.h 205-206 read the values from vector and not from vector_to_be_used, 214-217 leave the material at zero with coarsening (C80_coarse_refuted); 315-316 add dist * normal to the center instead of subtracting it (C80_circle_refuted); 323 compares dist and not its absolute value with the radius (C80_behind_refuted); 318-320 write dim + 1 coordinates (C80_parameters_refuted); 275 takes numeric_limits::min as the lowest number (C80_bounds_refuted); 159: a plane on a face cuts the cells of both sides (C80_once_refuted) |
| C81 | cfl_checker.h 98-119 looks at the quadrature points only, so a rotating grain may move further than the diameter at the corner of a cell although the check passes (C81_corner_refuted) |
| C82 | With `check_inconsistency` (and in the outputs `remap` and `grains_inconsistency` always) the tables read forces with segment numbers newer than the data: a grain gets the forces of another one (`C82_check_refuted`, `C82_remap_refuted`), or memory beyond the data is read or `at` throws while a failure is being reported (`C82_beyond_refuted`). |
| C83 | The clearing of the owner's value assumes that it is not negative: with a value cut below zero on a coarser level and two other processes setting a positive value, the entry ends with the negated old value, possibly above the iso level (`C83_negative_refuted`, `C83_levels_refuted`). Lines cut at different places make the result depend on the partitioning (`C83_partition_refuted`). |
| C84 | The format in the comment (numbers separated by blanks) always fails, commas are needed (`C84_blanks_refuted`). The number of grains in the first line is never compared in release mode and grains may stay without contour (`C84_count_refuted`); gaps in the order parameters are accepted and throw later (`C84_gap_refuted`). A Voronoi file that breaks off is read with repeated points and a grain zero (`C84_truncated_refuted`). Cells that touch without common point numbers may share an order parameter (`C84_touch_refuted`). `get_r_max` looks at segments, not grains (`C84_radius_refuted`). |
| C85 | kks.cc: where only one phase is present, a concentration below its equilibrium value makes the share of this phase exceed one and the other one negative after one step (C85_bound_refuted); nothing limits the phases to the range between zero and one. |
| C86 | constraint_helper.h: a periodic face counts as boundary, so cells with hanging nodes across the period get the weight of ordinary cells (C86_periodic_refuted); HangingNodeWeight is not checked and 10000*weight is converted to unsigned, so small factors give zero and negative or large ones are undefined (C86_weight_refuted). |
| C87 | cahn_hilliard_impl.cc 615-636: dt is enlarged before `t += dt`, so the recorded time is advanced by a step that was not yet made (C87_time_refuted) and one more step is solved at the end time (C87_overrun_refuted); cahn_hilliard.cc: chemical potential one step late, first step without effect, output labelled one step early (C87_lag_refuted). |
| C88 | allen_cahn_impl.cc: driving force multiplied by the phase (C88_one_refuted); vmult linearises about its argument and reads gradients without EvaluationFlags::gradients (C88_vmult_refuted). All Allen-Cahn programs start between 0 and 1 although the potential has its minima at -1 and 1 (C88_background_refuted). |
| C89 | solvers_linear.h 355: steps of Bicgstab counted in full after an early breakdown (C89_count_refuted); 315-357: foreign exception leaves the limit changed (C89_exception_refuted); Relaxation ignores the tolerance (C89_relaxation_refuted). solvers_nonlinear_snes.h 400: convergence in exactly max_iter iterations is a failure (C89_snes_limit_refuted); 378: monitor passes an empty vector whose blocks are then read (C89_monitor_refuted); threshold 0: no setup at the start (C89_snes_first_refuted). |
| C90 | input.h 61: greedy group keeps the closing quote of a value (C90_quoted_refuted); regex_search instead of regex_match takes the tail of a malformed option (C90_search_refuted); stray arguments are ignored (C90_ignored_refuted). runner.h 80: argv[1] used before argc is checked (C90_noargs_refuted); atoi converted to unsigned before the check (C90_negative_refuted); 32-bit product (C90_total_refuted); --debug without check of the compiled number of grains (C90_debug_refuted). |
| C91 | instantiation.h 117-142: message names the range from 1, cases begin at 2; grain growth with one order parameter passes the runner and then throws (C91_scalar_refuted). mask.h 43: test > 0 misses bit 32 (C91_sign_refuted, latent). |
| C92 | output.h 104-130: order of grains with equal centers is open (C92_tie_refuted); [0] of an empty vector for a grain without segments (C92_empty_refuted). output.h 221-246: all processes pass all grains, particles are duplicated (C92_particles_refuted). |
| C93 | postprocessors.h 947: factor 1/2 although only one of the two grains may have a contour (C93_half_refuted). 244-250: the nodal test loses facets for quadratic elements (C93_degree_refuted). 470-486: a facet without particle is written as grain 0 (C93_zero_refuted). |
| C94 | The fields div_vol, div_vap, div_surf, div_gb are minus the divergences of the fluxes; with the tensorial mobility their sum misses a thousandth of the surface part, which the residual contains (operator_postproc.h 184-188, mobility.h 622-632 against 777-782), and advection is in none of them |
| C95 | The mask of directions is an uninitialised std::array of bool (driver.h 1750), so directions nobody asked for may be clamped; on locally refined meshes degrees of freedom away from the plane are clamped, because only the centre of the face is compared; a section clamped in fewer than all directions leaves a rigid motion |
| C96 | The restart looks at flexible_output of the parameters where it should look at the value in the file (driver.h 405): attached values are lost or put at other places; meshes by divisions are globally refined before tria.load; the number of blocks per vector is not compared; with max_output 1 a kill between two files leaves a restart point mixed from two moments that loads without error |
| C97 | BlockVectorWrapper reserves storage and transforms into begin() without elements (numerics/output.h 40-55): undefined behaviour, and n_blocks() is zero, so the files of sections hold no field and the contours of sections are empty |
| C98 | `MyScope("Problem::create_grid");` and six similar statements of driver.h create temporaries without a timer that are destroyed at once: the stages they name are in no section (C98_stages_refuted). Section names containing `::` (e.g. tracker::track) make the joined names ambiguous (C98_distinct_refuted). |
| C99 | estimate_overhead: `max_values[0]` is read from an empty vector when no cell carries a grain (C99_histogram_refuted); the loop compares a 32-bit with a 64-bit count and never ends for meshes of 2^32 or more cells (C99_terminates_refuted); displacements count as grains (C99_counter_refuted). Coarsened copies lose features between coarse vertices (C99_lost_refuted). |
| C100 | GMG and BlockGMG are accepted for every preconditioner but all of them end in an exception (preconditioners.h 1111, lac/preconditioners.h 1389); for the second block also Identity, InverseBlockDiagonalMatrix and InverseComponentBlockDiagonalMatrix; unknown names in the parameter file are ignored (parameters.h 325); with default build, subdivisions other than 1 can never pass the check; top fraction times 3 plus bottom fraction may exceed 1 (driver.h 1844-1853). |
| C101 | split_up_fast and merge_fast presume that the unknowns are numbered point by point and that the vector holds whole points; neither is checked, and with another numbering they silently disagree with split_up and merge. |
| C102 | TimeMarchingArkode: within a step the right hand side uses the stationary values of the previous step; all stationary blocks are set from one residual, so chained stationary equations lag; the factor -1 is applied after the constraints, so an inhomogeneous constraint value g of a stationary block becomes -g. |
| C103 | DynamicBlockVector: create_view does not record the sizes, so size() of a view is 0, its entries cannot be addressed and mean_value divides by zero; move_block keeps the old sizes; assigning through a view can resize blocks of the original behind its back; operands with too many blocks are cut off without notice in a release build. |
| C104 | remap_old: the test for overlapping grains compares distances of the grains, but the values are moved by whole cells, so two grains without a common cell can share degrees of freedom; then the order of the moves is not checked and values end up in the order parameter of the other grain. A grain without neighbour has the buffer max/2 and takes along everything in its order parameter. |
| C105 | packing_properties.py: strict comparisons in distribute_in_segments drop a sphere that touches one plane of a slice and reaches or passes the other, or whose center is on a plane; the outermost spheres define the limits and so are dropped from the first and last slice if they are thicker than it (one sphere with two divisions has density 0 everywhere). The printed average radius is the mid-range. The plot positions mix absolute and relative lengths. |
| C106 | check_particle_connectivity.py 136-159: for particles of different size the nearest centre need not give the smallest gap, contrary to the documentation of the function; with the strategy larger more particles than necessary are enlarged. |
| C107 | contacts.py 163-176: for one sphere the small group is empty and BallTree raises an exception, although the assertion only asks for at least one sphere. |
| C108 | transform_packing.py 39-41: centrify subtracts half of the extent instead of the middle of the limits; a packing with lower limit a is moved so that its middle is at a instead of zero. |
| C109 | track_grain_data.py 136 and 217: a folder without statistics files is skipped before its name is removed from the list, so all later tables are saved under the name of the previous folder; with fewer files than rows of the log the remaining rows of np.empty are written uninitialised. |
| C110 | library.py 78 and 109-114: without a common end the slice f[s_start:-0] is empty, and the repair of empty labels drops the last character instead of extending to a separator (the loop condition s_end_current < 0 is never true), so a.x and a.y both get the label a.; the same code raises IndexError for s.log and a/s.log. |
| C111 | run_batch.py 264 builds the folder of a job without the mobility, so of several mobilities only the first is submitted (the others are ignored because of its lock). Lines 317 and 340: the lock is written before the folder is cleaned and removed with the rest, so a second job takes and cleans the folder of a running one. A debug run writes the locks too. Line 82 tests Account but reads Email (KeyError without Email; Email unused without Account). Case settings replace command line values. |
| C112 | jobs_submitter.py 19: the group for the partition name stops at a hyphen, so for a partition such as gpu-long the number of active jobs is always 0 and the limit applies to each pass instead of to the active jobs. |
| C113 | postproc_shrinkage.py 203-205: mask[:] of a numpy array is a view, so a leading zero in a column removes rows from the mask used for saving, and the assignment in 220 raises an exception; the inner loop variable i overwrites the number of the quantity, so plots get a wrong label (or an IndexError). Lines 198-199: a zero column is skipped but keeps its place in the header, so later columns are saved under wrong names. |
| C115 | parameters.h 255-258: the default DomainIntegrals contain solid_vol and free_energy, which operator_grain_growth.h (no solid_vol) and operator_grand_potential_greenquist.h (neither) do not know; with Table output switched on and default labels these programs end with an exception at the first output. |
| C116 | Matrix-based product of the coupled operator: the inner hooks for plain vectors save zeros over zero_c_constraints_values, so the displacements of nodes without material are zero in the product (operator_sintering_coupled_monolithic.h 329-352 and 160-171); two vectors that differ only there have the same product for every matrix. |
| C117 | operator_grain_growth.h 254: temp in apply_d2f_detaidetaj is not initialised and the first grain is left out of the sum; the result is the product only if temp happens to hold eta_0 v_0 (not called at present). |
| C118 | solvers_nonlinear_snes.h 387-390 hands an empty vector to the report; with verbosity 1, the default, time_marching.h 262 reads block 0 of it. Components between those of the data and the displacements are in no group of the report (driver.h 1298-1311). |
| C119 | C119: write_table never takes a table back to the restart point, so lines written after it occur twice; it empties the file at every output at time zero, so the debug tables of the initial refinements keep one line; the first output carries time_last_output = 0 whatever time_start is; the column avg_coord_num disappears from the lines, not from the header, once the tracker has no grains. |
| C120 | C120: densification_analysis.py skips folders without tables before csv_names.pop(0), so later folders are saved under names of others; rows of skipped tables come uninitialised from np.empty and are saved; 1.0001*top_right cuts the last layer of sample points when the coordinate is not positive. |
| C121 | C121: distribution_analysis.py reads curves[idx + 1]['time'][0] of an empty curve when the last tables are without values, an IndexError before the last curve with values is saved; with --delete, argmax of a table without values raises, and the saved total counts the value that was left out of the average. |
| C122 | C122/C08: the solves for the divergences of the fluxes (driver.h 2464-2483) stand in the try block after the new time and step number are set. If one does not converge, process_failure puts the old solution back but not the time: the simulated time runs on without the solution, the attempt is counted as a step and as a failed try, and in the last step the run ends with the old solution and without its last output and restart point. |
| C123 | postprocessors.h 1942-1946 names the vector of each direction prefix + ig, so that dim vectors share one name (C123_names_refuted). |
| C125 | operator_base.h 649-650 adds the block matrices twice; driver.h 2439-2442 leaves the sintering data out of the total; preconditioners.h 1294-1302 leaves out operator_2 and preconditioner_2; with the report switched on, a geometric multigrid or block diagonal preconditioner throws ExcNotImplemented (C125_operator_refuted, C125_total_refuted, C125_solid_refuted, C125_preconditioner). |
| C127 | densification_analysis.py: a table of one grain is an exception (genfromtxt gives an array without axis); only the first volume is checked for nan; rows missing against n_grains become points at the origin |

Seen while reading, outside of the properties: `update_state` of the coupled
operator has no caller; `split_up_components_fast` does not end without blocks;
the repartitioning after a restart is decided by the parameters of the new run
instead of those stored; `directions_mask` (driver.h 1750) is uninitialised;
`create_view(2, ...)` assumes that the order parameters start at block 2;
contacts of the particle cloud are stored by position but looked up by particle
id; `GrainGrowthFreeEnergy::apply_d2f_detaidetaj` (not called) is wrong.

Not expressible here: numerical accuracy of the finite element discretisation,
MPI progress/deadlock inside the library, wall-clock timing, memory exhaustion.
