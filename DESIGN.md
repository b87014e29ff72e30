# Machine-checked model of spins-b

Source: `/repo` (stanfordnqp/spins-b at the pinned commit), read as text, never run.
Model and theorems: `rocq/theories/*.v`, Rocq/Coq 8.16.1, built with
`coq_makefile -f _CoqProject -o Makefile && make -j4`.

## Conventions

* One group of files per area: `X_Model.v` (definitions that mirror the Python
  functions, each with a file:line citation and a note on simplifications),
  `X_Proofs.v` (lemmas), `X_Props.v` (theorem statements closed by
  `exact lemma`, concrete examples, `Print Assumptions`).  Short specifications
  that the statements need live at the top of `X_Props.v` or in `X_Spec.v`.
* Python exceptions are values (`Err KeyError`, ...); loops are structural
  recursion, folds, or fuelled recursion whose out-of-fuel result is an error
  value that the theorems exclude.
* Numbers.  Floats are modelled by exact rationals (`Q` with `==`), reals (`R`,
  only where exp/log occur) or, for the Maxwell operators, by the elements of an
  arbitrary field with conjugation and an element i (the record `cfield`, of
  which `Gauss.v` gives the Gaussian rationals as an executable instance), so
  that complex spacings are covered.  Rounding is **not** modelled.
* A claim that is false of the code is proved false: `..._refuted` gives a
  witness.  A claim of which only a part is proved carries the suffix
  `_partial`.
* Externals (solvers, objective functions, node functions, file system
  contents) are function arguments, so the theorems hold for all of them.

## Plan per property

| id | what is modelled | how it is proved |
|----|------------------|------------------|
| C01 | `_top_sort_affinity` (goos and invdes share the text), in-degree counting per edge, two queues, affinity oracle | loop invariant over the worklist: emitted prefix closed under inputs, counters = remaining in-edges; progress from acyclicity |
| C02 | `_eval_fun_vals` over a schedule | induction on the schedule, invariant "every stored value is the denotation" |
| C03 | heavy blocks | same invariant for independent blocks; witness DAG for the KeyError |
| C04 | reverse sweep of `eval_grad` over an abstract commutative group of gradients | invariant: accumulated gradient = sum over already processed consumers; final = recursive adjoint,  |
| C05 | array heap with in-place `+=` | frame/ownership invariant; witness heap for `Sum` |
| C06-C11 | `OptimizationPlan` as a state machine with files | invariants over operation lists, refinement of run/resume to fold over actions, witnesses |
| C12 | `add_node` recursion with fuel | closure invariant |
| C13 | name counters and rendering of decimal numbers | injectivity of decimal printing |
| C14 | version comparison | decision procedure, witnesses |
| C15 | object graph to name-referenced document and back | round trip on a node table |
| C16 | `get_object` cache | invariant over request lists, witness |
| C17, C18 | `run_plan`/`restore_workspace`/`Logger` with a file map | simulation between the resumed and the uninterrupted run |
| C19-C21 | `simulate` as a list cache; heap version; thread interleaving with a lock | invariant over histories; witness; induction over schedules |
| C22, C23 | vectors as lists | list induction |
| C24, C25 | `raster_1D` on `Q` | case analysis on the cell containing each endpoint |
| C26, C27 | `get_rendering_matrix_1d`, gradient factor | as C25; witness |
| C28, C29 | grid construction, `pos2ind` | arithmetic on `Q` |
| C30 | vec/unvec on index functions and lists | index arithmetic |
| C31-C34 | shift/derivative/curl operators over a field | pointwise equality, summation by parts on a periodic grid |
| C35, C36 | abstract linear maps | algebra |
| C37 | scpml on lists | list induction |
| C38 | selection matrices as functions | counting argument |
| C39 | clip | order reasoning |
| C40-C42 | optimizer loops | fuelled loops, invariants |
| C43 | closures over a loop variable | environment model of late binding |
| C44 | pack/unpack | list induction |
| C45 | constraints on edge lists | list induction |
| C46 | DP table | optimality by induction on the position |
| C47-C49, C79 | objective classes, operators, the executor's reverse sweep; `Fit2Eps` | real analysis (`derivable_pt_lim` along curves), induction on expressions, sweep invariant: pending gradients paired with slopes add up to the slope of the root |
| C50, C82 | cells and polygon sets as lists | list induction, witnesses |
| C51, C52 | nested groups as trees, Python slices | induction on trees, witnesses |
| C53 | blocks, layers, removal of overlaps, rendering; external polygon subtraction as a parameter | pointwise sums over layers equal the material, integrals of the sums over each cell, invariants of the loops |
| C54, C81 | log rows as a list | list induction, witnesses |
| C55-C57 | crash and resume of plans and workspaces | simulation between runs, witnesses |
| C58-C60 | pixel grids, shifted grids, rendering of pixelated shapes | arithmetic on `Q`, sums over overlaps |
| C61 | grating Jacobian | one-sided finite differences |
| C62 | Bloch rotation and derivative matrices | action on functions on the infinite lattice |
| C63-C65 | wave operators, first-order system, Poynting matrices | matrix algebra over a `cfield`, summation by parts |
| C66 | the action behind `Variable.set`, freeze, thaw | invariant over call sequences |
| C67-C69 | `uniform_grid_scpml`, `generate_periodic_dx`, `make_nonuniform_grid` | arithmetic on `Q`, loop invariant with a termination measure |
| C70-C72 | moment methods, augmented Lagrangian, iteration limits | closed forms by induction, algebra, witnesses |
| C76, C77 | design bounds, `average_2xFarEdge` | bounding rectangle of a marked set, block matrices |
| C78 | event files and `resume` | simulation of the interrupted by the uninterrupted run |
| C80 | constraint lists | list induction |
| C83 | `raster_2D` on exact rationals | sum over the cut edges (telescoping over consecutive vertices), then Riemann integrals of the crossings of each edge |
| C84, C85, C104 | numeric goos nodes, their operators, `eval_grad` with the aliasing of gradient arrays | every node: `grad` gives the rate of change along curves (`derivable_pt_lim`); reverse sweep over a heap of arrays: the loads paired with velocities add up to the rate of the result; operators: merged terms are a permutation of the terms of both sides |
| C86-C88 | `FdfdSimulation` and `SimulateNode` with permittivity, overlap, absolute value, power and reference-permittivity nodes, over the complex numbers | solutions of regular linear systems move differentiably (estimate on the inverse), adjoint identity of the solver (C19), chain rule; invariants of the caches and the node over histories; witnesses on a grid of two cells |
| C89 | `gen_gds` over abstract regions, loops with fuel | nested families: rounds remove leaves, parity of coverage is invariant, counting argument for termination; witnesses |
| C90-C96 | the waveguide operator, v2e, v2h, normalization, `solve_waveguide_mode` after the eigenvalue solver, `compute_source`, `build_waveguide_source` | field identities for one cell; a field cut off at a plane differs from the field by terms in two planes; continuation of the mode by powers of a phase; sine estimates; summation by parts; witnesses on strips of 4 and 6 cells |
| C97-C103 | `build_plane_wave_source`, `build_gaussian_source`, `scalar2rotated_vector_fields`, `normalize_source_by_sim` | closed forms of the rotated fields; locality of the wave operator; second differences of waves; induction over calls |
| C105-C109 | `avgf`, `avgb`, `poynting_e_cross`, `poynting_h_cross`, `compute_overlap_e`, `build_overlap` | rows of the matrices read off cell by cell; linearity and locality of the pairing; the source of C92 continued to the overlap; witness on a line of five cells |
| C110-C115 | `CubicMatrices` and its helpers, `make_geometry_matrix_cubic`, `CubicParam`, the two creators | the 16 coefficients as a tensor product of cubic Hermite pieces; slopes at the seams; matrices with one 1 per row read as index functions; mirror and translation of the pieces; rounding of the grid sizes |
| C116-C119 | the optimizing transformations of creator_opt.py over an arbitrary strategy in place of scipy | induction on strategies and cycles; invariant over restarts; composition with C17 |
| C120-C122 | objectives of simulations: `EmObjective` over cached forward and adjoint simulations, overlap objectives with target amplitudes and with ranges of powers; `EmObj_*` | chain rule through the implicit function of the wave equation, adjoint pairing outside layers, derivative of the range penalty |
| C123-C126 | far fields: meshes of the sphere, selection of directions, integration, spherical components, scattering objectives; `Ff_*` | induction over refinements with cones over triangles, angles modulo whole turns, quotient rule |
| C127-C129 | flows: sums of gradients over class hierarchies, constancy flags, renaming shapes; `Flow_*` | method resolution order as a computable function, simulation of two runs of the executor |
| C130 | benchmark problems and their solutions; `Bench_*` | values of expressions in closed form, sums of squares |
| C131-C132 | convergence of gradient descent, termination of its adaptive form; `Descent_*` | three-point inequality of the projection, induction over iterations, Bernoulli's inequality |
| C133 | modes of photonic crystals; `Phc_*` | weighted transposes of the curls, energy identity, positivity of sums |
| C134-C136 | contexts, schema registry, joined monitors; `Reg_*` | invariants over runs, first-occurrence tables |
| C137-C138 | simulation spaces and materials; `Space_*` | decimal rounding, cache invariant, squares of complex numbers |
| C139-C140 | positions, slices, slabs and fills; `Slice_*` | interpolation, cuboids of draw_cuboid and render |
| C141-C142 | eigenfrequency simulations; `Eig_*` | difference quotients of the frequency shift formula of C133, invariant of the cache |
| C143-C144 | client of the external solver; `Remote_*` | closed form of the unfolded arrays axis by axis, induction on files, attempts, rounds |
| C145-C146 | skewed periods; `Skew_*` | every vector is the restriction of a skew-periodic function on the lattice, on which the rotations are translations; hence they commute and are unitary |
| C147-C149 | imported overlaps; `Imp_*` | along one axis the two points around a position give the same mixture for every cell that contains it; three axes by nesting; single points by the widened list |
| C150-C151 | several modes, error measures; `Orth_*` | summation by parts on the torus gives (b1 + b2) F12 = omega times a symmetric form; the reversed and the conjugate mode give the second equation; discrete div curl = 0 recovers the axial field from a zero residual |
| C152-C155 | directions, monitors, dipoles, plane wave nodes; `Mon_*` | the entry along the axis carries all but 2e-12 of the squared length; pos2ind and unvec of C29, C30; the plane wave lemmas of `Fs_*` |
| C156-C157 | projection to the far field (`Far_*`) | matrices as functions of two indices composed as in the code; their action on a vectorized field; sums over selected cells as sums over the grid |
| C158-C159 | other shift matrices (`Mir_*`) | functions on the integer lattice with the symmetry of the boundary; the matrices move their samples; the entries are those of the matrices in `Maxwell_Model` |
| C160-C161 | tables of materials (`Mat_*`) | slopes of the shape preserving interpolation are at most three times the secants, hence no overshoot; bounds of the tables by computation |
| C162-C163 | generic solver (`Qmr_*`) | diagonal preconditioners are invertible; rows and columns of conductors vanish; induction on the recursion limit |
| C164-C165 | layouts (`Stk_*`) | induction on the stack with the blocks of C53 and the slabs of C140 |
| C166-C167 | `HermiteParam` (`Her_*`) | derivative of the sigmoid of a linear function; cases of the lengths; clipping |
| C73-C75 | discretization action, multi-etch and barcode gratings | reduction to C46, sums of overlaps, list induction |

## Trusted base

* Coq's kernel (no native compilation, no plugins).
* The reading of the Python source recorded in the comments of the model files.
* Axioms: `Print Assumptions` is run under every theorem of the `_Props.v` files.
  It prints "Closed under the global context" for all of them, with the
  exceptions in this table, which are axioms of the standard library's real
  numbers.

| theorems | axioms |
|----------|--------|
| all of `Obj_Props.v`; `fit_gradient_is_half`, `fit_gradient_refuted` | `ClassicalDedekindReals.sig_forall_dec`, `FunctionalExtensionality.functional_extensionality_dep`, and in some `ClassicalDedekindReals.sig_not_dec` |
| all of `GMath_Props.v` | `ClassicalDedekindReals.sig_not_dec`, `ClassicalDedekindReals.sig_forall_dec`, `FunctionalExtensionality.functional_extensionality_dep`, `Classical_Prop.classic` |
| `raster_2D_average`, `raster_2D_covered`, `raster_2D_orientation`, `raster_2D_start` | `ClassicalDedekindReals.sig_forall_dec`, `ClassicalDedekindReals.sig_not_dec`, `FunctionalExtensionality.functional_extensionality_dep`, `Classical_Prop.classic` |
| `render_exact`, `render_bounds`, `render_uniform`, `render_overlay`, `render_disjoint` | the same four |
| `disable_intersection_refuted`, `draw_polygon_block`, `draw_cuboid_block`, `raster_2D_bow_tie_refuted` | `ClassicalDedekindReals.sig_forall_dec`, `FunctionalExtensionality.functional_extensionality_dep` |
| all of `Adj_Props.v` | `ClassicalDedekindReals.sig_forall_dec`, `FunctionalExtensionality.functional_extensionality_dep`, and `ClassicalDedekindReals.sig_not_dec` in `overlap_gradient_exact`, `diff_gradient_exact` |
| `Wg_Props.v` except `eigenvector_is_mode`, `source_emits_one_way`, `power_is_conserved` (closed) | `ClassicalDedekindReals.sig_forall_dec`, `ClassicalDedekindReals.sig_not_dec`, `FunctionalExtensionality.functional_extensionality_dep`, and `Classical_Prop.classic` in `wavenumber_correction_worsens`, `tools_correction_helps` |
| `Fs_Props.v`: `beam_frame`, `beam_straight`, `plane_wave_*`, `gaussian_*`, `magnetic_field`, `cut_current_one_sided`, `mask_*`, `half_border_ignored`, `normalized_source_emits`, `first_plane_empty` | `ClassicalDedekindReals.sig_forall_dec`, `ClassicalDedekindReals.sig_not_dec`, `FunctionalExtensionality.functional_extensionality_dep`; for those about sines, cosines and roots also `Classical_Prop.classic`. `borders_used`, `large_border_raises`, `gaussian_center_z` are closed |
| `Ov_Props.v`: all theorems | `ClassicalDedekindReals.sig_forall_dec`, `ClassicalDedekindReals.sig_not_dec`, `FunctionalExtensionality.functional_extensionality_dep`; for those about sines, cosines and roots also `Classical_Prop.classic`. `borders_used`, `large_border_raises`, `gaussian_center_z` are closed |
| `Cub_Props.v`: all theorems | `ClassicalDedekindReals.sig_forall_dec`, `FunctionalExtensionality.functional_extensionality_dep`; those that decide equality or order of reals also `ClassicalDedekindReals.sig_not_dec`. The three `geometry_*` theorems are closed |
| `OptRun_Props.v`: all theorems | none |
| `EmObj_Props.v`: all theorems | `functional_extensionality_dep`, `sig_forall_dec`, `sig_not_dec` (Reals; the last not in all of them) |
| `Ff_Props.v`: all theorems | `functional_extensionality_dep`, `sig_forall_dec`, `sig_not_dec`, `classic` (Reals; the last two not in all of them) |
| `Flow_Props.v`: all theorems | none |
| `Her_Props.v`: all theorems | sig_forall_dec, sig_not_dec, functional_extensionality_dep, classic (the last for hermite_sides and hermite_gradient only) |
| `Stk_Props.v`: gds_cell, mesh_cell | sig_not_dec, sig_forall_dec, functional_extensionality_dep, classic |
| `Stk_Props.v`: all other theorems | sig_forall_dec, functional_extensionality_dep |
| `Qmr_Props.v`: all theorems | none |
| `Mat_Props.v`: all theorems | none |
| `Mir_Props.v`: `mirror_shift`, `mirror_continuation`, `mirror_refused` | none |
| `Mir_Props.v`: the other theorems | `ClassicalDedekindReals.sig_forall_dec`, `ClassicalDedekindReals.sig_not_dec`, `FunctionalExtensionality.functional_extensionality_dep`, and `Classical_Prop.classic` for `bloch_round_trip` and `bloch_round_trip_refuted` |
| `Far_Props.v`: all theorems | `ClassicalDedekindReals.sig_forall_dec`, `ClassicalDedekindReals.sig_not_dec`, `FunctionalExtensionality.functional_extensionality_dep`, `Classical_Prop.classic` |
| `Mon_Props.v`: plan_border_cells | none |
| `Mon_Props.v`: the others | `ClassicalDedekindReals.sig_forall_dec`, `ClassicalDedekindReals.sig_not_dec` (not all of them), `FunctionalExtensionality.functional_extensionality_dep` |
| `Orth_Props.v`: modes_orthogonal, powers_add | none |
| `Orth_Props.v`: the others | `ClassicalDedekindReals.sig_forall_dec`, `ClassicalDedekindReals.sig_not_dec`, `FunctionalExtensionality.functional_extensionality_dep` |
| `Imp_Props.v`: all | none |
| `Skew_Props.v`: skew_plane_wave, skew_dispersion, skew_resonance_iff, skew_rejected, skew_far_refuted, skew_frequencies_real | sig_forall_dec, sig_not_dec, functional_extensionality_dep (Reals) |
| `Skew_Props.v`: others | none |
| `Remote_Props.v`: all | none |
| `Eig_Props.v`: eig_gradient | sig_not_dec, sig_forall_dec, functional_extensionality_dep |
| `Eig_Props.v`: the others | sig_forall_dec, functional_extensionality_dep |
| `Slice_Props.v`: axes_good to slice_center_refuted, fill_fails | none |
| `Slice_Props.v`: slab_block, fill_slab_block, fill_cuboid_block, slab_reach_refuted | sig_forall_dec, functional_extensionality_dep |
| `Slice_Props.v`: slab_rendered | sig_not_dec, sig_forall_dec, functional_extensionality_dep, classic |
| `Space_Props.v` | none |
| `Reg_Props.v` | none |
| `Phc_Props.v`: phc_frequencies_real, phc_resonances_real, phc_modes_orthogonal, phc_frequency_shift | `sig_forall_dec`, `functional_extensionality_dep` (Reals) |
| `Phc_Props.v`: other theorems | none |
| `Descent_Props.v`: all theorems | none |
| `Bench_Props.v`: all theorems | `functional_extensionality_dep`, `sig_forall_dec`, `sig_not_dec`, `classic` (Reals; the last two not in all of them) |

## Modelled code

| files | modelled parts |
|-------|----------------|
| `GraphExec_*`, `GradHeap_*` | goos/graph_executor.py, invdes/problem/graph_executor.py: graph construction, scheduling, evaluation, gradient sweep, array aliasing (flows.py, math.py `Sum`) |
| `Plan_*` | goos/optplan/optplan.py: `OptimizationPlan`, save/load/resume/autorun, variables, actions |
| `Schema_*` | goos/optplan/schema.py, invdes/problem_graph/optplan/io.py: names, versions, references |
| `Workspace_*`, `Solver_*` | invdes/problem_graph/workspace.py, solver.py: object cache, logging, running and restoring plans |
| `SimCache_*` | invdes/problem/simulation.py: cache, locking |
| `Raster_*`, `Grid_*`, `Render_*` | gridlock/float_raster.py `raster_1D`; gridlock/grid.py construction, shifts and index conversion; goos_sim/maxwell/simspace.py grid construction; goos_sim/maxwell/render.py |
| `Raster2_*` | gridlock/float_raster.py `raster_2D` with its helpers |
| `Layer_*` | gridlock/grid.py `draw_polygon`, `draw_cuboid`, `compute_layers`, `remove_intersection`, `render_polygon`, `render` |
| `Param_*` | invdes/parametrization (direct, grating, composite), slack_optimization_problem.py |
| `Maxwell_*`, `CField*`, `Gauss` | fdfd_tools/vectorization.py, operators.py, functional.py; local_matrix_solvers.py preconditioning; adjoint simulation |
| `Pml_*` | fdfd_tools/grid.py; periodic and nonuniform grids |
| `Opt_*` | invdes/optimization: gradient descent family, constrained_optimizer.py, scipy_optimizer.py; goos/optimize.py |
| `Grating_*` | goos/grating.py, invdes/problem/grating.py |
| `Select_*` | gridlock/selection_matrix.py, invdes/problem/selection_matrix.py |
| `Obj_*`, `Fit_*` | invdes/problem/objective.py, structure_objectives.py `Fit2Eps` |
| `GMath_*`, `GMathOp_*`, `HeapChain_*` | goos/math.py (all nodes and operators), with graph_executor.py and flows.py as far as gradients of arrays; shapes are reduced to numbers of entries, nan and inf are errors, numpy before 1.24 |
| `Adj_*`, `LinAlg`, `CplxField` | problem_graph/creator_em.py `FdfdSimulation`, `Epsilon`, `OverlapFunction`, `DiffEpsilon`; problem_graph/functions/poynting.py; objective.py `AbsoluteValue`; goos_sim/maxwell/simulate.py `SimulateNode` with its sources and outputs. The linear solver inside the preconditioning is a parameter, mode solver and beams are functions of the permittivity, the selection matrix is given by its entries |
| `Log_*` | invdes/problem_graph/log_tools/loader.py |
| `Gds_*` | gds/parse_gds.py (after parsing) |
| `GenGds_*` | gds/gen_gds.py; gdspy's polygons, point test and boolean NOT are parameters |
| `Wg_*` | fdfd_tools/waveguide.py `operator`, `normalized_fields`, `v2h`, `v2e`, `curl_e`, `curl_h`; fdfd_solvers/waveguide_mode.py wavenumber correction, `solve_waveguide_mode`, `compute_source`, `build_waveguide_source`; fdfd_tools/waveguide_mode.py wavenumber correction. Eigenvectors and eigenvalues are arguments |
| `Fs_*` | fdfd_tools/free_space_sources.py, all functions with mu = None and polarity 1 or -1; fdfd_solvers/waveguide_mode.py `compute_transmission_chew`; the Bloch phases of fdfd_tools/operators.py:657-728. Not modelled: rounding (numpy's arange in the mask is taken exact), nan (an error value here), the positions of the grid (a parameter) |
| `Ov_*` | fdfd_tools/operators.py:450-477, 731-799; fdfd_solvers/waveguide_mode.py:478-547, 933-1010 (`compute_overlap_e`, `build_overlap`) for windows of one plane given by first indices and lengths. The eigenvector is an argument as in `Wg_*`. A norm of zero (numpy: nan and a warning) is an error value. Not modelled: `compute_overlap_angle`, reading the slices from coordinates |
| `Cub_*` | invdes/parametrization/cubic_utils.py:10-268, 349-480, 578-885, 1043-1084, 1227-1273 (`CubicMatrices` and helpers, `make_geometry_matrix_cubic` and helpers); parametrization.py:171-267 (`CubicParam`, scalar bounds); goos/compat.py:144-240; invdes/problem_graph/creator_param.py:73-141. Sparse matrices with one 1 per row are index functions; the interpolation matrices are functions of the control vector. Not modelled: the level set parametrizations made by the same creators, an axis of one point in `symmetry_matrix`, `fit2eps` and other methods of other classes |
| `OptRun_*` | invdes/problem_graph/creator_opt.py:10-380 (`ScipyOptimizer`, `PenaltyOptimizer`, `CubicParamSigmoidStrength`); optimization/scipy_optimizer.py:13-148; constrained_optimizer.py:19-111; schema_opt.py:8-51. `scipy.optimize.minimize` is an arbitrary well-founded strategy. From the schematics library: `items` of a model is a list, unset fields are None and left out by `to_native`. Not modelled: exceptions raised by the objective, monitors, `fix_borders` and thresholding (their parametrizations are not in the repository) |
| `EmObj_*` | invdes/problem/emobjective.py:24-68, 95-168, 177-185, 197-291, 321-407; simulation.py:30-259 (`FdfdSimulation`, `AdjointFdfdSimulation`). The solver is `LocalMatrixSolver.solve` with mu, pec and pmc None, no symmetry, real frequency. A nan is an error. Vectors of modes are given. Not modelled: `get_phase`, the waveguide solver, grid interpolation of modes |
| `Ff_*` | invdes/problem/farfield.py:430-616, 722-800; ffobjective.py:44-95, 141-255. The projection matrix (farfield.py:1-427) is an argument here; it is modelled in `Far_*`. A nan is an error. Not modelled: `spheric2cart_matrix`, `spheric2spheric_matrix` (NameError), plots |
| `Flow_*` | goos/flows.py:1-203, array.py:1-60, 180-201, generic.py:38-75, shapes.py:10-330 (classes, flags), 438-517, compat.py:51-71, graph_executor.py:105-155, 308-312. Classes are a table (bases, declared fields, how Grad comes about); dataclass field order and C3 linearization are modelled. Values abstract in the part on flags. Not modelled: `ConstFlags.set_all` of user-written classes, names of nodes |
| `Bench_*` | invdes/optimization/problems.py:1-207, with the expressions of `Obj_*`. A problem is objective, constraints, start and bounds. Not modelled: UnboundLocalError of unknown instances (they give no problem) |
| `Descent_*` | the optimizers of `Opt_*` with the projection of DirectParam, invdes/optimization/gradient_descent.py:98-227, invdes/parametrization/parametrization.py:147-156. Smoothness is a hypothesis on values and gradients within the bounds |
| `Phc_*` | fdfd_solvers/phc_mode_solver.py, with the operators of `Maxwell_*`. eigs and np.sqrt are arguments with contracts; the FDFD simulation for the initial vector is an argument; shift_orthogonal is zero |
| `Reg_*` | problem_graph/optplan/context.py, goos/optplan/context.py, goos/schema_registry.py, log_tools/monitor_spec.py without the yml files |
| `Space_*` | problem_graph/simspace.py:15-149, 331-424 (grids of a wavelength are arguments), material/material.py without the tables, goos/material.py |
| `Slice_*` | gridlock/grid.py `ind2pos`, `pos2ind`, `coord2ind`, `get_slice`, `draw_slab`, `fill_slab`, `fill_cuboid` |
| `Eig_*` | goos_sim/maxwell/simulate.py:578-608 (eigen solvers), 654-871 `SimulateEigNode`, `EigenValue`. The solver is a parameter, sources have no state |
| `Remote_*` | fdfd_solvers/maxwell.py. The server is a function from the request to the stored arrays; requests.post reads the file object to its end before it connects. Left out: vec and unvec, apply_scpml (before), exp of the Bloch phase, time stamps, temporary directories, the errors list of solver_info |
| `Skew_*` | fdfd_tools/operators.py:44-98, 241-276, 603-728 with shift_orthogonal and with the phases computed from the cell sizes and a real Bloch vector |
| `Imp_*` | invdes/problem_graph/creator_em.py:585-668 (ImportOverlap); scipy loadmat as an argument, RegularGridInterpolator (linear, fill value 0) written out; fields of more than three axes not modelled |
| `Orth_*` | fdfd_tools/waveguide.py:181-214 (e2h, h2e), 251-307 (h_err, e_err), with the curls of `Wg_*` |
| `Mon_*` | gridlock/direction.py:17-62, invdes/problem_graph/creator_monitor.py:30-104, fdfd_solvers/dipole.py:9-35, invdes/problem_graph/creator_em.py:67-147, 208-254, 456-478 (without normalize_by_sim, which is in `Fs_*`); tuples as directions, complex frequencies and the choice of the solver are not modelled |
| `Far_*` | invdes/problem/farfield.py:26-427 (make_near2farfield_matrix, make_near2farfield_box_matrix, fields_on_slice, move2H_matrix, make_fourier_matrix), fdfd_tools/operators.py:431-447 (vec_cross) | real omega; grid coordinates as functions; cropped coordinates are read at the selected cells; empty windows and far field points at the origin are ValueError |
| `Mir_*` | fdfd_tools/operators.py:375-414 (shift_with_mirror), 480-600 (rotation_bloch, deriv_forward, deriv_back) | a shape of two sizes is one with a third size 1; sizes zero are not considered |
| `Mat_*` | material/material.py:6-59 and the tables of SiO2, Si, Si3N4; scipy's pchip_interpolate from its documentation | exact decimal numbers; one wavelength; the wavelength 0 is an error |
| `Qmr_*` | fdfd_tools/solvers.py | matrix solver and the iterates of scipy's qmr are arguments; the printed residual stands for its iterate; the user's callback does not fail |
| `Stk_*` | problem_graph/simspace.py:196-330 | the lookup of materials (see `Space_*`) and the layers of the file are arguments; real permittivities |
| `Her_*` | parametrization.py:16-117, 332-472 (`HermiteParam`) | matrices of cubic_utils are arguments; bounds are two numbers; not modelled: fit2eps |
| `Shape_*` | goos/shapes.py `GroupShape`, goos/util.py `make_slice` helpers |

Each model file cites the lines behind every definition.

## Not modelled

Floating point rounding, numpy broadcasting beyond what is stated in the
comments, pickle/JSON byte formats, wall-clock time, the EM solvers, GDS file
parsing, polygon clipping (gdspy), plotting, and GPU/remote solver back ends.
