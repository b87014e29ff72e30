{"id": "C01", "title": "Execution order is a topological order", "statement": "For every acyclic flow graph, the order in which the graph executor schedules nodes contains every node of the graph exactly once and places every node after all of its inputs, whatever the grouping of expensive nodes and whatever order the Python set of expensive nodes happens to iterate in.", "quantifier": "all finite acyclic multigraphs, all sets of affinity nodes, all set iteration orders", "why_tests_cant": "set iteration order is nondeterministic and the number of DAGs is unbounded; a test fixes one graph and one iteration order", "anchors": ["spins/goos/graph_executor.py:_top_sort_affinity", "spins/goos/graph_executor.py:_create_computational_graph", "spins/invdes/problem/graph_executor.py:_top_sort_affinity"]}
{"id": "C02", "title": "eval_fun equals the recursive meaning of the graph", "statement": "eval_fun returns, for every requested node, the value obtained by recursively evaluating its inputs (with overridden nodes taking their override value), regardless of evaluation order and of sharing between the requested nodes, when no expensive node depends on another expensive one.", "quantifier": "all acyclic graphs, all node functions, all override environments, all lists of requested outputs", "why_tests_cant": "quantifies over arbitrary graphs, functions and override maps", "anchors": ["spins/goos/graph_executor.py:eval_fun", "spins/goos/graph_executor.py:_eval_fun_vals"]}
{"id": "C03", "title": "Heavy blocks: dependent expensive nodes break evaluation", "statement": "Expensive nodes scheduled consecutively are evaluated as one parallel block from inputs available before the block. This gives the sequential result when no node of the block feeds another one; when one does, evaluation raises KeyError although the graph is a perfectly valid DAG.", "quantifier": "all blocks of consecutive expensive nodes; existence of a failing DAG", "why_tests_cant": "the failure depends on which nodes the scheduler happens to make adjacent", "anchors": ["spins/goos/graph_executor.py:_eval_fun_vals", "spins/invdes/problem/graph_executor.py:_eval_fun_vals"]}
{"id": "C04", "title": "eval_grad is the chain rule", "statement": "eval_grad returns one gradient per requested variable, and together they are the transpose of the objective's forward-mode derivative: for every choice of directions for the variables, the sum of <gradient, direction> equals <seed, directional derivative of the objective by the chain rule>. A variable the objective does not depend on gets zero. This holds when each node's grad method is the transpose of its own derivative and expensive nodes do not use None entries (an expensive node that does makes eval_grad raise NameError).", "quantifier": "all acyclic graphs with arbitrary fan-out and repeated inputs, all linear local pullbacks", "why_tests_cant": "quantifies over all graphs and path multiplicities", "anchors": ["spins/goos/graph_executor.py:eval_grad", "spins/invdes/problem/graph_executor.py:eval_grad"]}
{"id": "C05", "title": "Gradient accumulation and array aliasing", "statement": "Gradients accumulated in place are correct as long as the arrays a node hands out for its inputs are pairwise distinct objects; goos.Sum hands the same array to several inputs, so a sum in which one variable occurs twice next to another variable yields a wrong gradient for that other variable.", "quantifier": "all accumulation histories with fresh arrays; existence of a failing sum", "why_tests_cant": "aliasing shows up only for particular repetition patterns of inputs", "anchors": ["spins/goos/graph_executor.py:eval_grad", "spins/goos/flows.py:NumericFlow.Grad.__iadd__", "spins/goos/math.py:Sum.grad"]}
{"id": "C06", "title": "Plan variables change only inside actions", "statement": "Outside of a running action every attempt to set a variable's value or bounds, or to freeze or thaw it, raises and leaves the plan state unchanged; a frozen variable's value is unaffected by any number of attempts to set it.", "quantifier": "all plan states and all sequences of API calls", "why_tests_cant": "ranges over all call histories", "anchors": ["spins/goos/optplan/optplan.py:OptimizationPlan.set_var_value", "spins/goos/optplan/optplan.py:_requires_action", "spins/goos/optplan/optplan.py:OptimizationPlan.freeze_var"]}
{"id": "C07", "title": "Freeze/thaw bookkeeping", "statement": "After any history of freeze and thaw calls the list of thawed variables contains exactly the registered variables whose last freeze/thaw call (or initial declaration) left them not frozen, each once.", "quantifier": "all histories of add/freeze/thaw calls", "why_tests_cant": "ranges over unbounded histories", "anchors": ["spins/goos/optplan/optplan.py:OptimizationPlan.get_thawed_vars", "spins/goos/math.py:FreezeVariable", "spins/goos/math.py:ThawVariable"]}
{"id": "C08", "title": "Checkpoint round trip", "statement": "Reading a checkpoint written in any plan state restores every variable's value, bounds and frozen status and the action pointer, whatever happened to the plan in between; nothing else observable through the variable API differs.", "quantifier": "all plan states before and after, all variable sets", "why_tests_cant": "ranges over all states and all intervening histories", "anchors": ["spins/goos/optplan/optplan.py:OptimizationPlan.write_checkpoint", "spins/goos/optplan/optplan.py:OptimizationPlan.read_checkpoint", "spins/goos/optplan/optplan.py:OptimizationPlan.get_state_dict"]}
{"id": "C09", "title": "Resuming from an action checkpoint repeats the checkpointed action", "statement": "Resuming a plan from the automatic checkpoint of action N yields the state in which action N has been executed twice and every other action once; it equals the uninterrupted run when re-running action N on its own result changes nothing, and differs for some plans otherwise.", "quantifier": "all plans (lists of deterministic actions), all N", "why_tests_cant": "crash points and action behaviours are unbounded", "anchors": ["spins/goos/optplan/optplan.py:OptimizationPlan.run", "spins/goos/optplan/optplan.py:OptimizationPlan.resume"]}
{"id": "C10", "title": "Event files", "statement": "Within one run every logged event gets a fresh consecutive step number so no event file overwrites another; after read_checkpoint in a fresh process numbering restarts, and existing step files are overwritten.", "quantifier": "all interleavings of events, checkpoints and actions", "why_tests_cant": "ranges over unbounded event histories and restart points", "anchors": ["spins/goos/optplan/optplan.py:OptimizationPlan.write_event", "spins/goos/optplan/optplan.py:OptimizationPlan.read_checkpoint"]}
{"id": "C11", "title": "A failing action leaves the plan writable", "statement": "run() re-protects the plan after the last action when all actions succeed; when an action raises, the exception propagates with the plan still writable, so that later modifications outside any action are accepted.", "quantifier": "all action lists, all failure positions", "why_tests_cant": "failure positions and histories are unbounded", "anchors": ["spins/goos/optplan/optplan.py:OptimizationPlan.run"]}
{"id": "C12", "title": "add_node closes the plan under inputs", "statement": "After adding a node, the plan contains that node and every node reachable through inputs, contains each node once, and keeps the first node registered under each name; adding an already present node changes nothing.", "quantifier": "all graphs and all histories of additions", "why_tests_cant": "ranges over graphs and histories", "anchors": ["spins/goos/optplan/optplan.py:OptimizationPlan.add_node"]}
{"id": "C13", "title": "Generated names are fresh", "statement": "Automatically generated names are pairwise distinct for any history of generations within a process.", "quantifier": "all histories of name generation requests", "why_tests_cant": "unbounded histories", "anchors": ["spins/goos/optplan/schema.py:generate_name", "spins/invdes/problem_graph/optplan/io.py:generate_name"]}
{"id": "C14", "title": "Plan version check", "statement": "Loading accepts a plan version exactly when the implemented comparison accepts it; newer-major versions with a smaller minor component, such as 1.0.0, are rejected although older ones are accepted, and every version string equal to the library's own is accepted.", "quantifier": "all version triples", "why_tests_cant": "unbounded version space", "anchors": ["spins/goos/optplan/schema.py:_validate_optplan_version", "spins/invdes/problem_graph/optplan/io.py:_validate_optplan_version"]}
{"id": "C15", "title": "Saved plans load back", "statement": "dumps followed by loads rebuilds an isomorphic plan: same nodes, same fields, references resolved to the same named nodes, for every plan with unique node names.", "quantifier": "all plans with unique names, all reference structures including shared references", "why_tests_cant": "ranges over all object graphs", "anchors": ["spins/goos/optplan/schema.py:dumps", "spins/goos/optplan/schema.py:loads", "spins/invdes/problem_graph/optplan/io.py:dumps", "spins/invdes/problem_graph/optplan/io.py:loads"]}
{"id": "C16", "title": "Workspace object cache", "statement": "Requesting the same node any number of times returns the same object and creates it once; a different node with an already used name silently gets the object of the first one.", "quantifier": "all request histories, all creators", "why_tests_cant": "unbounded histories", "anchors": ["spins/invdes/problem_graph/workspace.py:Workspace.get_object"]}
{"id": "C17", "title": "Workspace resume", "statement": "Interrupting run_plan after any completed transformation and resuming from the files on disk produces the same final parametrization and parameter values as the uninterrupted run; resumption starts at the first transformation without a checkpoint and never reruns a completed one. This needs distinct transformation names and every parameter used to be in the parameter list of the same or an earlier transformation. In the middle of a transformation the same holds, with identical files, if the transformation can be continued from its logs and sets no parameters.", "quantifier": "all plans of deterministic transformations, all crash points at transformation boundaries", "why_tests_cant": "crash points and plans are unbounded", "anchors": ["spins/invdes/problem_graph/solver.py:restore_workspace", "spins/invdes/problem_graph/solver.py:run_plan", "spins/invdes/problem_graph/workspace.py:Logger.write_checkpoint"]}
{"id": "C18", "title": "Log step files", "statement": "Logger.write numbers its files consecutively, the latest-log lookup returns the file written last, and after a resume new files never overwrite the existing ones.", "quantifier": "all histories of writes and resumes", "why_tests_cant": "unbounded histories", "anchors": ["spins/invdes/problem_graph/workspace.py:Logger.write", "spins/invdes/problem_graph/workspace.py:get_latest_log_step", "spins/invdes/problem_graph/solver.py:restore_workspace"]}
{"id": "C19", "title": "The simulation cache is transparent", "statement": "For every request history, simulate returns exactly what the solver returns for the requested structure, calls the solver at most once per run of cached structures, keeps the number of cache slots constant and evicts the least recently used structure.", "quantifier": "all request histories, all cache sizes at least one, all solvers", "why_tests_cant": "unbounded histories", "anchors": ["spins/invdes/problem/simulation.py:FdfdSimulation.simulate", "spins/invdes/problem/simulation.py:AdjointFdfdSimulation.simulate"]}
{"id": "C20", "title": "The simulation cache aliases the caller's array", "statement": "The cache stores the caller's array itself: if the caller updates that array in place and simulates again, the stale fields are returned; histories that never mutate a structure passed earlier are safe.", "quantifier": "all histories with in-place updates; existence of a failing history", "why_tests_cant": "depends on caller mutation history", "anchors": ["spins/invdes/problem/simulation.py:FdfdSimulation.simulate"]}
{"id": "C21", "title": "Concurrent simulate calls are linearizable", "statement": "Under any interleaving of threads calling simulate on one simulation object, each call returns the solver's result for its own structure, and identical concurrent requests solve at most once while cached.", "quantifier": "all numbers of threads and all schedules", "why_tests_cant": "schedules are not enumerable by tests", "anchors": ["spins/invdes/problem/simulation.py:FdfdSimulation.simulate"]}
{"id": "C22", "title": "CompositeParam round trips", "statement": "For direct, grating, composite and slack parametrizations nested in any way, decode(encode()) restores every component exactly, from_vector(to_vector()) and deserialize(serialize()) restore its projection onto the bounds. Vectors are split at the component boundaries; structure, Jacobian and bounds are listed in the same order as vector entries, and a projected object lies within the bounds it reports.", "quantifier": "all lists of component parametrizations of any sizes", "why_tests_cant": "unbounded sizes", "anchors": ["spins/invdes/parametrization/composite_parametrization.py:CompositeParam", "spins/invdes/parametrization/composite_parametrization.py:_split_vector"]}
{"id": "C23", "title": "Slack reformulation is equivalent", "statement": "With one nonnegative slack value per inequality, the slack problem has a feasible point with objective v exactly when the original inequality-constrained problem has one, and the gradient of each replaced inequality is its own gradient followed by the unit vector of its slack. Slack values are not projected: with a negative slack a projected point satisfies the slack problem while violating the inequality. Asking for bounds of slack variables added to a composite parametrization raises.", "quantifier": "all constraint functions and points", "why_tests_cant": "quantifies over all problems", "anchors": ["spins/invdes/problem/slack_optimization_problem.py:SlackOptimizationProblem", "spins/invdes/problem/slack_optimization_problem.py:SlackParam", "spins/invdes/problem/slack_optimization_problem.py:SlackVariable"]}
{"id": "C24", "title": "Grating structures are exact area fractions", "statement": "The structure vector of a grating parametrization has, in each pixel, exactly the length fraction of the pixel covered by the grating teeth; entries lie in [0,1], they add up to the total tooth length inside the grid, and the inverted structure is the complement.", "quantifier": "all sorted edge vectors, all positive pixel counts", "why_tests_cant": "real-valued inputs of unbounded length", "anchors": ["spins/invdes/parametrization/grating_parametrization.py:GratingParam.get_structure", "spins/gridlock/float_raster.py:raster_1D"]}
{"id": "C25", "title": "raster_1D returns exact overlap fractions", "statement": "For every interval inside the domain and every increasing grid of edges, raster_1D returns for each cell the fraction of the cell covered by the interval.", "quantifier": "all strictly increasing grids, all intervals", "why_tests_cant": "real-valued inputs of unbounded length", "anchors": ["spins/gridlock/float_raster.py:raster_1D"]}
{"id": "C26", "title": "Rendering matrix rows are overlap weights", "statement": "The 1D rendering matrix has entry (overlap of grid cell and shape cell)/(grid cell length); rows of cells fully inside the shape sum to one, rows outside are zero, and a constant shape renders to its constant.", "quantifier": "all increasing grids and shape edges", "why_tests_cant": "real-valued inputs of unbounded length", "anchors": ["spins/goos_sim/maxwell/render.py:get_rendering_matrix_1d"]}
{"id": "C27", "title": "Rendering gradient weighting", "statement": "The gradient that rendering propagates to the pixels of a shape is the exact adjoint of rendering when the incoming gradient and the permittivities are real; with complex data the contributions of the x, y and z components are weighted 8, 4 and 2 instead of 2, 2 and 2.", "quantifier": "all shapes, grids, contrasts and incoming gradients; existence of a witness for the wrong weights", "why_tests_cant": "real-valued inputs of unbounded size; the error is invisible when only one component contributes", "anchors": ["spins/goos_sim/maxwell/render.py:PixelatedContShapeFlowImpl.grad"]}
{"id": "C28", "title": "Simulation grid covers the region", "statement": "The generated edge coordinates are uniformly spaced by dx. In goos they are centred on the region, their total length differs from the larger of the extent and dx by at most half a cell on a non-symmetric axis, and a symmetric axis has an even number of cells rounded down, so zero cells when the extent is below 2 dx. In invdes the grid starts half a cell below the region and has ceil(extent/dx) cells, so it is not centred and can end before the region does.", "quantifier": "all extents, spacings, centres", "why_tests_cant": "real-valued inputs", "anchors": ["spins/goos_sim/maxwell/simspace.py:create_edge_coords", "spins/invdes/problem_graph/simspace.py:_create_edge_coords"]}
{"id": "C29", "title": "Region slices are valid", "statement": "Every region slice returned for a region meeting the grid selects a nonempty range of existing cells, starts at the cell containing the lower end (or the first cell) and contains every cell that reaches into the region and ends inside it; past the first selected cell it contains no cell extending beyond the region except the last cell of the grid. A region missing a grid of several cells raises GridError. A cell whose centre lies in the region can be left out.", "quantifier": "all grids and regions", "why_tests_cant": "real-valued inputs", "anchors": ["spins/goos_sim/maxwell/simspace.py:create_region_slices", "spins/invdes/problem_graph/grid_utils.py:create_region_slices", "spins/gridlock/grid.py:Grid.pos2ind"]}
{"id": "C30", "title": "vec and unvec are inverse", "statement": "unvec(vec(f), shape) == f for every three-component field and vec(unvec(v, shape)) == v for every vector of matching length, with Fortran ordering within a component.", "quantifier": "all shapes and contents", "why_tests_cant": "unbounded shapes", "anchors": ["spins/fdfd_tools/vectorization.py:vec", "spins/fdfd_tools/vectorization.py:unvec"]}
{"id": "C31", "title": "Matrix and functional curls agree", "statement": "Applying the sparse curl matrices to a vectorized field gives the vectorization of the functional curl, for both grids.", "quantifier": "all shapes, spacings and fields over any field of numbers", "why_tests_cant": "unbounded shapes", "anchors": ["spins/fdfd_tools/operators.py:curl_e", "spins/fdfd_tools/operators.py:curl_h", "spins/fdfd_tools/functional.py:curl_e", "spins/fdfd_tools/functional.py:curl_h"]}
{"id": "C32", "title": "Divergence of a curl vanishes", "statement": "The discrete divergence of a discrete curl is exactly zero at every grid point of a periodic grid, for non-uniform spacings as well.", "quantifier": "all shapes, spacings and fields", "why_tests_cant": "unbounded shapes", "anchors": ["spins/fdfd_tools/operators.py:curl_e", "spins/fdfd_tools/operators.py:curl_h"]}
{"id": "C33", "title": "Preconditioned operator is symmetric", "statement": "With the preconditioners of e_full_preconditioners, the preconditioned electric-field operator equals its transpose for every grid, spacing (including complex PML spacings), permittivity and permeability without Bloch phase.", "quantifier": "all shapes, spacings, materials over any field", "why_tests_cant": "unbounded shapes and values", "anchors": ["spins/fdfd_tools/operators.py:e_full", "spins/fdfd_tools/operators.py:e_full_preconditioners"]}
{"id": "C34", "title": "Functional and matrix wave operators", "statement": "functional.e_full and operators.e_full give the same result when mu is omitted and differ for some mu otherwise (the functional one multiplies by mu where the matrix one divides).", "quantifier": "all shapes, spacings, permittivities; existence of a witness", "why_tests_cant": "unbounded shapes and values", "anchors": ["spins/fdfd_tools/functional.py:e_full", "spins/fdfd_tools/operators.py:e_full"]}
{"id": "C35", "title": "Preconditioned solves solve the original system", "statement": "If the inner matrix solver returns an exact solution, LocalMatrixSolver.solve returns x with A x = b, and in adjoint mode x with A^H x = b.", "quantifier": "all matrices, right-hand sides and invertible preconditioners", "why_tests_cant": "unbounded matrices", "anchors": ["spins/fdfd_solvers/local_matrix_solvers.py:LocalMatrixSolver.solve"]}
{"id": "C36", "title": "Adjoint simulation", "statement": "The adjoint simulation solves the conjugate-transposed system for real spacings, and for complex spacings whenever the source is supported and the result is read on cells with real spacing; for some complex spacing it does not.", "quantifier": "all systems symmetrizable by the cell volumes", "why_tests_cant": "unbounded matrices", "anchors": ["spins/invdes/problem/simulation.py:AdjointFdfdSimulation._run_solver"]}
{"id": "C37", "title": "PML stretching is local and pure", "statement": "apply_scpml leaves the arrays and lists it is given untouched and returns fresh ones. With non-overlapping layers it changes only cells within the requested number of layers of each boundary, never changes the real part of a cell, and the imaginary part it adds is nonpositive for positive frequency and grows strictly towards the boundary. It fails exactly when a layer is thicker than the axis, with IndexError. Overlapping layers can change real parts, and stretch_with_scpml (unlike apply_scpml) replaces arrays in the caller's lists.", "quantifier": "all grids, layer counts and frequencies with non-overlapping PMLs", "why_tests_cant": "real-valued inputs of unbounded length", "anchors": ["spins/fdfd_tools/grid.py:apply_scpml", "spins/fdfd_tools/grid.py:stretch_with_scpml"]}
{"id": "C38", "title": "Selection matrices are partitions of unity", "statement": "The selection matrices (direct lattice, its deprecated form, reduced) give every cell the average of the structure over those of its four quadrants that lie in the design area, so entries are nonnegative and each row sums to one (if the cell shares a point with the design area) or zero. Structure values in [0,1] therefore give permittivities between background and foreground. Design bounds outside the grid are rejected with ValueError.", "quantifier": "all grid sizes, design bounds inside the grid, structures and permittivities", "why_tests_cant": "unbounded sizes", "anchors": ["spins/invdes/problem/selection_matrix.py:direct_lattice", "spins/gridlock/selection_matrix.py:direct_lattice", "spins/gridlock/selection_matrix.py:create_selection_matrix"]}
{"id": "C39", "title": "DirectParam projection", "statement": "Projecting a direct parametrization puts every entry into its bounds, changes no entry already inside them, is idempotent and moves each entry to the nearest admissible value.", "quantifier": "all vectors and bounds", "why_tests_cant": "real-valued inputs", "anchors": ["spins/invdes/parametrization/parametrization.py:DirectParam.project"]}
{"id": "C40", "title": "Gradient optimizer iteration counts", "statement": "optimize(iters=k) stops after the first iteration at which k iterations were done, the optimizer's total is reached, or the iteration asked to stop, calling back after each; running a then b iterations is the same as running a + b. At least one iteration is always performed, even when the total is already used up, and iters=0 is treated as no limit.", "quantifier": "all iteration functions and limits", "why_tests_cant": "unbounded runs", "anchors": ["spins/invdes/optimization/gradient_descent.py:GradientOptimizer.optimize"]}
{"id": "C41", "title": "Adaptive gradient descent never increases the objective", "statement": "Every accepted step of the adaptive gradient descent leaves the recorded objective equal to the objective of the current parameters and not larger than before, so objective values never increase over a run; each step is the largest in the sequence of shrinking steps that does not increase the objective. An iteration need not terminate when the gradient is not that of the objective.", "quantifier": "all objectives, gradients, step sizes, histories", "why_tests_cant": "unbounded runs", "anchors": ["spins/invdes/optimization/gradient_descent.py:AdaptiveGradientDescent"]}
{"id": "C42", "title": "Penalty optimizer schedule", "statement": "A penalty optimization performs exactly the configured number of cycles with penalty weights mu0, mu0**tau, (mu0**tau)**tau, ...; for mu0 above one and an exact inner optimizer the constraint violation never grows, the objective never falls and each penalized value bounds the constrained optimum from below. With mu0 below one the weights shrink. Calling the same optimizer object again performs one cycle, with the initial weight.", "quantifier": "all cycle counts and inner optimizers", "why_tests_cant": "unbounded runs and histories", "anchors": ["spins/invdes/optimization/constrained_optimizer.py:PenaltyOptimizer"]}
{"id": "C43", "title": "Constraint closures", "statement": "The scipy wrappers pass one constraint per user constraint, but every closure evaluates the last one, so the solver sees only the last constraint of each kind, repeated; with at most one constraint of each kind the wrapper is faithful. Methods other than SLSQP and COBYLA are given no constraints.", "quantifier": "all lists of constraints and points", "why_tests_cant": "depends on closure capture; lists unbounded", "anchors": ["spins/goos/optimize.py:ScipyOptimizer", "spins/invdes/optimization/scipy_optimizer.py:ScipyOptimizer"]}
{"id": "C44", "title": "Variables are packed and unpacked consistently", "statement": "Unpacking a packed vector of optimization variables restores every variable with its data and shape, except that scalars come back with shape (1,); bounds line up with entries unless a variable has been set to a value of another size.", "quantifier": "all lists of variables and shapes", "why_tests_cant": "unbounded sizes", "anchors": ["spins/goos/optimize.py:ScipyOptimizer"]}
{"id": "C45", "title": "Grating feature constraints", "statement": "The constraint vector is nonpositive exactly when all adjacent edges are separated by the minimum feature and the outer edges respect the boundary margin, and its gradient is the exact constant Jacobian; for composite gratings both hold for the concatenation, with a block-diagonal Jacobian. Fewer than two edges or a negative feature raise ValueError. The edge-location constraint of goos has the right values, but in its gradient the row of the first edge has the wrong sign.", "quantifier": "all edge vectors of length at least two", "why_tests_cant": "real-valued inputs of unbounded length", "anchors": ["spins/invdes/problem/grating.py:GratingFeatureConstraint", "spins/invdes/problem/grating.py:_diff_matrix", "spins/goos/grating.py:EdgeLocConstraint"]}
{"id": "C46", "title": "Grating discretization is optimal", "statement": "If the minimum feature of every level is at least one pixel, the dynamic program that discretizes a continuous grating returns edges on the grid with at least one edge, from the start to the end level, with every inner segment within the feature limits of its level, of minimal squared error among all such gratings; if there is none of error below 2**30 it returns a single edge at 0. With smaller features the result need not be optimal, a feature of zero raises IndexError, and a flat target is never returned flat.", "quantifier": "all target profiles, lengths and minimum feature sizes", "why_tests_cant": "combinatorial search space", "anchors": ["spins/goos/grating.py:_get_general_edge_loc_dp"]}
{"id": "C47", "title": "Fit-to-epsilon gradient", "statement": "The permittivity fitting objective is defined for all parameter vectors and its derivative along every curve is exactly twice what the returned gradient says, so the gradient is not the derivative.", "quantifier": "all selection matrices, structures, targets", "why_tests_cant": "real-valued inputs", "anchors": ["spins/invdes/problem/structure_objectives.py:Fit2Eps"]}
{"id": "C48", "title": "LogSumExp bounds", "statement": "The smooth maximum lies between the maximum and the maximum plus log n, and its gradient weights are positive and sum to one. The softmax average lies between the smallest and the largest input.", "quantifier": "all nonempty vectors", "why_tests_cant": "real-valued inputs", "anchors": ["spins/invdes/problem/objective.py:LogSumExp", "spins/invdes/problem/objective.py:SoftmaxAverage"]}
{"id": "C49", "title": "Objective algebra", "statement": "Objectives built with +, -, *, ** and negation from objectives, numbers and constants have the value of the formula, and their gradient is the derivative of the formula wherever its powers are smooth. A weighted sum has the weighted sum of the values. Multiplying an objective by an array adds the array instead, unless the objective is a product or a constant.", "quantifier": "all formulas and evaluation points", "why_tests_cant": "unbounded trees", "anchors": ["spins/invdes/problem/objective.py:OptimizationFunction.__mul__", "spins/invdes/problem/objective.py:Sum", "spins/invdes/problem/objective.py:Product", "spins/invdes/problem/objective.py:Power", "spins/invdes/problem/objective.py:Constant"]}
{"id": "C50", "title": "GDS top cell selection", "statement": "When a top cell is chosen automatically it is the unique visible cell with the most polygons, and none is chosen if and only if no cell is visible or some visible cell equals the largest count among the cells before it (an empty cell in front counts as such a tie), so the order of cells in the file decides whether there is an error. A cell asked for by name is the first of that name.", "quantifier": "all cell lists", "why_tests_cant": "unbounded lists and orders", "anchors": ["spins/gds/parse_gds.py:GDSImport._get_top_level_cell"]}
{"id": "C51", "title": "Group shapes sort stably by priority", "statement": "Flattening nested groups keeps every shape once and orders them by priority while keeping insertion order among equals; gradients are scattered back to the original positions.", "quantifier": "all nested groups", "why_tests_cant": "unbounded nesting", "anchors": ["spins/goos/shapes.py:GroupShape"]}
{"id": "C52", "title": "Slices", "statement": "A slice built from an index other than 0 and -1 selects exactly that plane, or nothing outside the axis; \"center\" selects the middle plane; no index leaves the axis whole. Index 0 also leaves the axis whole and index -1 selects nothing.", "quantifier": "all indices and axis lengths", "why_tests_cant": "boundary values", "anchors": ["spins/goos/util.py:make_slice"]}
{"id": "C53", "title": "Rendering blocks is averaging the material", "statement": "After drawing polygons and cuboids and rendering, every cell of every component holds the average over the cell of the material at each point: the permittivity of the block drawn last over that point, else the background. So the values lie between the least and greatest permittivity involved, and a cell of uniform material holds exactly its permittivity. A polygon is placed around its center and a cuboid is the box of its extents; polygons of fewer than three points and thicknesses that are not positive are rejected. With removal of overlaps disabled the blocks add their contrasts, which is the same for disjoint blocks but not for overlapping ones. A grid made with fewer grids than shifts cannot be rendered.", "quantifier": "all edges, both Yee shifts, all lists of blocks whose polygons are simple and for which the external polygon subtraction is right", "why_tests_cant": "real-valued geometry, unbounded numbers of blocks and layers", "anchors": ["spins/gridlock/grid.py:Grid.render", "spins/gridlock/grid.py:Grid.render_polygon", "spins/gridlock/grid.py:Grid.compute_layers", "spins/gridlock/grid.py:Grid.remove_intersection", "spins/gridlock/grid.py:Grid.draw_polygon", "spins/gridlock/grid.py:Grid.draw_cuboid"]}
{"id": "C54", "title": "Joined monitor logs", "statement": "Where every logged value has an iteration number, joining the scalar monitors of all transformations yields the logged values in order, the places where transformations begin, and one iteration number per value, never decreasing. The order of the files in the directory does not matter. Values without iteration numbers cause an IndexError or fewer iteration numbers than values; an empty log a KeyError.", "quantifier": "all log sequences with recorded iterations", "why_tests_cant": "unbounded logs", "anchors": ["spins/invdes/problem_graph/log_tools/loader.py:get_joined_scalar_monitors"]}
{"id": "C55", "title": "resume(auto_checkpoint=False) still writes checkpoints", "statement": "Resuming a plan with automatic checkpoints switched off writes no checkpoint for the resumed action but still writes one for every later action.", "quantifier": "all plans, checkpoints and actions", "why_tests_cant": "any number of actions of arbitrary code", "anchors": ["spins/goos/optplan/optplan.py:OptimizationPlan.resume", "spins/goos/optplan/optplan.py:OptimizationPlan.run"]}
{"id": "C56", "title": "Resume in the middle of a transformation loses parameter values", "statement": "If run_plan is interrupted after a transformation that sets parameters has written a log file, the resumed process continues the transformation without setting those parameters, so it can end with a different result than the uninterrupted run.", "quantifier": "existence of a plan and crash point", "why_tests_cant": "needs crash injection between two file writes", "anchors": ["spins/invdes/problem_graph/workspace.py:Workspace.run", "spins/invdes/problem_graph/solver.py:restore_workspace"]}
{"id": "C57", "title": "Folders that cannot be resumed correctly", "statement": "A checkpoint holding a parameter that no completed transformation lists makes resume fail with KeyError; a plan with two transformations of the same name skips transformations when resumed; a run without resume in a used folder overwrites log files, and if it crashes and is resumed, it returns immediately with the old run's values.", "quantifier": "existence of plans and crash points for each failure", "why_tests_cant": "needs crash injection", "anchors": ["spins/invdes/problem_graph/solver.py:restore_workspace", "spins/invdes/problem_graph/solver.py:run_plan"]}
{"id": "C58", "title": "Pixels of a shape", "statement": "The array of a pixelated shape has as many entries along an axis as there are pixels between its edge coordinates, namely ceil(extent/pixel size); the edges span exactly the extent, interior pixels have the pixel size and border pixels are between half and one pixel size long.", "quantifier": "all positive extents and pixel sizes", "why_tests_cant": "real-valued inputs", "anchors": ["spins/goos/shapes.py:PixelatedContShapeFlow.get_relative_edge_coords", "spins/goos/shapes.py:PixelatedContShapeFlow.get_shape"]}
{"id": "C59", "title": "Shifted grids", "statement": "The cell sizes of a shifted grid are the differences of its edges on the primary grid and, for shifts by nothing or half a cell, on the complementary grid; other shifts of the complementary grid give a wrong first cell. The edges used for rendering are strictly increasing, as many as the grid's own, and bisect the grid cells for half shifts.", "quantifier": "all grids and shifts", "why_tests_cant": "real-valued inputs of unbounded length", "anchors": ["spins/gridlock/grid.py:Grid.shifted_exyz", "spins/gridlock/grid.py:Grid.shifted_dxyz", "spins/goos_sim/maxwell/render.py:PixelatedContShapeFlowImpl.eval"]}
{"id": "C60", "title": "Rendering of pixelated shapes", "statement": "The value a pixelated shape contributes to a grid cell of each field component is the permittivity contrast times the average of the pixel values weighted by the volume fraction of the cell that each pixel covers; a uniform shape contributes its value times the covered volume fraction.", "quantifier": "all shapes, arrays, grids and components", "why_tests_cant": "real-valued inputs of unbounded size", "anchors": ["spins/goos_sim/maxwell/render.py:PixelatedContShapeFlowImpl.eval", "spins/goos_sim/maxwell/render.py:get_rendering_matrix"]}
{"id": "C61", "title": "Gradient of grating structures", "statement": "The Jacobian of a grating parametrization is the exact one-sided derivative of its structure: moving one edge to the right by t, not beyond the next edge or the next pixel boundary, changes every pixel by exactly t times the Jacobian entry. To the left of an edge lying on a pixel boundary the change is different.", "quantifier": "all sorted edge vectors, pixels, edges and steps", "why_tests_cant": "real-valued inputs of unbounded length", "anchors": ["spins/invdes/parametrization/grating_parametrization.py:GratingParam.calculate_gradient", "spins/invdes/parametrization/grating_parametrization.py:GratingParam.get_structure"]}
{"id": "C62", "title": "Bloch boundary conditions", "statement": "With Bloch factors, the derivative matrices applied to the restriction of a quasi-periodic function on the infinite lattice give the restriction of its finite differences; the rotation matrix with a shifted boundary gives the translated function, for a lattice sheared in directions orthogonal to the axis. A shift parallel to the axis is rejected with ValueError.", "quantifier": "all grids, Bloch factors, quasi-periodic functions and admissible orthogonal shifts", "why_tests_cant": "unbounded grids and fields", "anchors": ["spins/fdfd_tools/operators.py:rotation_bloch_shift", "spins/fdfd_tools/operators.py:deriv_forward_bloch_shift", "spins/fdfd_tools/operators.py:deriv_back_bloch_shift"]}
{"id": "C63", "title": "Lossless operators are Hermitian", "statement": "For real frequency, spacing, permittivity and permeability and Bloch factors on the unit circle, the preconditioned electric-field operator equals its conjugate transpose, with any PEC and PMC masks.", "quantifier": "all grids and lossless materials", "why_tests_cant": "unbounded matrices", "anchors": ["spins/fdfd_tools/operators.py:e_full", "spins/fdfd_tools/operators.py:e_full_preconditioners"]}
{"id": "C64", "title": "First-order and second-order forms agree", "statement": "Fields that solve the coupled system of eh_full with currents J and M solve the second-order system of e_full with the current J - m2j(M), and that of h_full; conversely the field returned by e2h completes an electric field to a solution of the coupled system without magnetic current, and h2e recovers the electric field when there is no electric current. The functional form of eh_full computes the same. eh_full needs an explicit mu.", "quantifier": "all grids, materials, masks, currents and fields", "why_tests_cant": "unbounded matrices", "anchors": ["spins/fdfd_tools/operators.py:eh_full", "spins/fdfd_tools/operators.py:e_full", "spins/fdfd_tools/operators.py:h_full", "spins/fdfd_tools/operators.py:e2h", "spins/fdfd_tools/operators.py:m2j"]}
{"id": "C65", "title": "Poynting vectors", "statement": "The Poynting matrices give the cross product of E at the next cell and H times the face area; the two forms agree on real spacings. When both spacing lists coincide, the net outflow of the Poynting vector of a cell equals its volume times H.curl E - E.curl H, and the total over the periodic grid vanishes; for some grid whose two lists differ, it does not hold per cell.", "quantifier": "all grids and fields; existence of a witness", "why_tests_cant": "unbounded fields", "anchors": ["spins/fdfd_tools/operators.py:poynting_chew_e_cross", "spins/fdfd_tools/operators.py:poynting_chew_h_cross"]}
{"id": "C66", "title": "Assigning variables and parameters", "statement": "Running the action added by Variable.set assigns the value of the function evaluated at that moment and changes no other registered variable, no bounds and no frozen flag; it raises ValueError and assigns nothing exactly when the variable is frozen and is not a parameter. A parameter stays frozen under every sequence of set, freeze, thaw and run calls.", "quantifier": "all plan states, all sequences of calls", "why_tests_cant": "unbounded call sequences", "anchors": ["spins/goos/math.py:SetVariable", "spins/goos/math.py:Variable.thaw", "spins/goos/optplan/optplan.py:OptimizationPlan.set_var_value"]}
{"id": "C67", "title": "Uniform grids with absorbing layers", "statement": "uniform_grid_scpml returns unit real widths; its imaginary parts are those that apply_scpml gives the other of the two grids, multiplied by the layer thickness, so the two ways to build the same grid disagree.", "quantifier": "all grid lengths, thicknesses up to half of the length and nonzero frequencies", "why_tests_cant": "real-valued formulas on unbounded grids", "anchors": ["spins/fdfd_tools/grid.py:uniform_grid_scpml", "spins/fdfd_tools/grid.py:stretch_with_scpml"]}
{"id": "C68", "title": "Periodic grid spacing", "statement": "generate_periodic_dx turns n points into n - 1 cells: the first grid holds their differences, the second the cyclic averages of neighbouring differences, and both add up to the distance from the first to the last point.", "quantifier": "all lists of at least two points", "why_tests_cant": "unbounded lists of reals", "anchors": ["spins/fdfd_tools/grid.py:generate_periodic_dx"]}
{"id": "C69", "title": "Non-uniform grids", "statement": "make_nonuniform_grid terminates and raises no IndexError when the upper border and the mesh sizes are positive; its points increase strictly, end at the upper border, and no cell is larger than the default mesh size or than the mesh size of a box containing the look-up point of the cell. The first point is the lower border scaled by the same factor as the rest, so it need not be the lower border, and the mesh size can more than double from one cell to the next.", "quantifier": "all borders, default mesh sizes, gradients, steps and lists of boxes", "why_tests_cant": "termination and unbounded real-valued inputs", "anchors": ["spins/fdfd_tools/grid.py:make_nonuniform_grid"]}
{"id": "C70", "title": "Moment estimates of the stochastic-gradient optimizers", "statement": "Run by optimize() from a fresh optimizer, Adam steps along weighted averages of the gradients and squared gradients seen so far, Adagrad divides by the root of the sum of squared gradients, RMSProp by that of a discounted sum, and NAG accumulates discounted gradients at the look-ahead points; parameters are projected after each step. Calling Adam's iterate() directly does not advance its bias correction.", "quantifier": "all gradients, projections, rates, histories", "why_tests_cant": "unbounded runs", "anchors": ["spins/invdes/optimization/gradient_descent.py:Adam", "spins/invdes/optimization/gradient_descent.py:Adagrad", "spins/invdes/optimization/gradient_descent.py:RmsProp", "spins/invdes/optimization/gradient_descent.py:Nag"]}
{"id": "C71", "title": "Augmented Lagrangian cycles", "statement": "A call performs at most the configured number of cycles; if it ends early the constraint violation and the last tolerance are below the final tolerances and the cycle callback is not called for that cycle; the weight is the initial one times a power of 100. A multiplier update makes the minimized function the ordinary Lagrangian with the new multipliers plus a squared distance of constraint values, and a minimizer is optimal among points with the same constraint values.", "quantifier": "all problems, inner optimizers, tolerances", "why_tests_cant": "unbounded runs", "anchors": ["spins/invdes/optimization/constrained_optimizer.py:AugmentedLagrangianOptimizer"]}
{"id": "C72", "title": "Iteration limit of resumed optimizations", "statement": "A resumed goos scipy optimization is given the full configured iteration limit again, not the remaining one, so the total may exceed it; a limit of zero means no limit.", "quantifier": "all limits and numbers of completed iterations", "why_tests_cant": "depends on a dictionary lookup that never succeeds", "anchors": ["spins/goos/optimize.py:ScipyOptimizer.run", "spins/goos/optimize.py:ScipyOptimizer.resume"]}
{"id": "C73", "title": "Discretization of a grating variable", "statement": "Discretizing a grating accepts exactly minimum features of at least one pixel and then stores the best grating for the given feature sizes: edges in user units, or widths that accumulate to these edges. Every width but the first obeys the limits of its own segment. The bounds stored with the widths are those of the following segment, so a freshly discretized grating can violate them.", "quantifier": "all target profiles, depths, feature sizes, start and end levels and divisions", "why_tests_cant": "combinatorial search space", "anchors": ["spins/goos/grating.py:GratingL2D"]}
{"id": "C74", "title": "Drawing multi-level gratings", "statement": "The pixel values of a grating with several etch depths are exactly the filled area fractions of the drawn segments, in [0, 1], mirrored for negative polarity, if no level is thinner than the rest of the pixel it starts in; thinner levels can give values above one. The part before the first edge and after the extent is unetched. The gradient with respect to widths is the adjoint of accumulating them.", "quantifier": "all levels, edges or widths, grid sizes, polarities", "why_tests_cant": "unbounded lists of reals", "anchors": ["spins/goos/grating.py:PixelatedGrating", "spins/goos/grating.py:MultiEtchEdgeParametrization"]}
{"id": "C75", "title": "Barcode gratings", "statement": "The bars of a barcode grating span exactly consecutive edge locations, scaled to the extent and centred at the position; one height is used for all bars, several heights are used in order, and bars without a height are dropped silently.", "quantifier": "all locations and heights", "why_tests_cant": "unbounded lists", "anchors": ["spins/goos/grating.py:BarcodeGrating"]}
{"id": "C76", "title": "Design area and foreground", "statement": "The design area is the smallest rectangle around the lattice points whose cells differ noticeably between foreground and background in all three components; without such a point there is a ValueError. A structure of ones gives the foreground on every cell that shares a point with the design area and the background elsewhere. A cell that differs in one component only, away from that area, keeps the background. The reduced matrix gives the foreground exactly on the bounding box of all differences and within 1e-6 elsewhere.", "quantifier": "all grid sizes, foregrounds and backgrounds", "why_tests_cant": "unbounded sizes and arbitrary permittivities", "anchors": ["spins/gridlock/selection_matrix.py:calculate_design_bounds", "spins/gridlock/selection_matrix.py:create_selection_matrix", "spins/gridlock/selection_matrix.py:create_selection_matrix_deprecated"]}
{"id": "C77", "title": "Averaging with neighbours", "statement": "average_2xFarEdge leaves cells outside the design area alone, copies the structure to the z components, and averages each pixel with one other pixel for the x and y components. Rows sum to one, except that for designs at least three pixels wide the x rows of the last column sum to 3/2; the second row of y components is averaged with the far edge instead of its neighbour.", "quantifier": "all grid sizes, design bounds inside the grid and structures", "why_tests_cant": "unbounded sizes", "anchors": ["spins/invdes/problem/selection_matrix.py:average_2xFarEdge", "spins/gridlock/selection_matrix.py:average_2xFarEdge"]}
{"id": "C78", "title": "Resuming inside an action", "statement": "Resuming a freshly loaded plan from the file written when an action reported an event restores the variables of that moment and hands the event to the action's resume, then runs the later actions; if the action continues from there as it would have, the outcome is that of an uninterrupted run. Actions without resume, and actions whose event data is empty, are instead run again from their start on the half-finished state.", "quantifier": "all plans, actions, events and crash points after the event", "why_tests_cant": "arbitrary action code and crash points", "anchors": ["spins/goos/optplan/optplan.py:OptimizationPlan.resume", "spins/goos/optplan/optplan.py:OptimizationPlan.write_event", "spins/goos/optplan/optplan.py:OptimizationPlan.read_checkpoint"]}
{"id": "C79", "title": "The gradient of an objective is its derivative", "statement": "calculate_objective_function returns the value of the objective's expression, however its parts are shared and whatever order sets are iterated in. calculate_gradient returns the vector whose product with any velocity is the derivative of calculate_objective_function along every curve of parameter vectors with that velocity, where all parts are smooth, old-style parts and the parametrization differentiate correctly, and no heavy function feeds a heavy function. Two variables in one objective give a ValueError from both. A power with exponent 0 has no gradient at 0 although it is constant.", "quantifier": "all objectives, parametrizations, parameter vectors and curves", "why_tests_cant": "real analysis over unbounded expression graphs", "anchors": ["spins/invdes/problem/objective.py:OptimizationFunction.calculate_gradient", "spins/invdes/problem/objective.py:OptimizationFunction.calculate_objective_function", "spins/invdes/problem/graph_executor.py:eval_grad", "spins/invdes/problem/graph_executor.py:eval_fun"]}
{"id": "C80", "title": "Constraint evaluation", "statement": "The constraint values and constraint gradients of an optimization problem come back as the equality part and the inequality part, each in the order of the constraints given; evaluation succeeds if and only if every constraint does.", "quantifier": "all constraint lists", "why_tests_cant": "unbounded lists", "anchors": ["spins/invdes/problem/objective.py:OptimizationProblem.calculate_constraints", "spins/invdes/problem/objective.py:OptimizationProblem.calculate_constraint_gradients"]}
{"id": "C81", "title": "Single monitor values", "statement": "Asking a log for one value of a monitor returns the value at the requested iteration of the last matching transformation and event that has one of the monitor names, or nothing if there is none; without an iteration, the last value. An iteration that was not logged silently gives the last value, and rows without iteration numbers make it return the value of another iteration.", "quantifier": "all logs, monitor names, transformations, events and iterations", "why_tests_cant": "unbounded logs", "anchors": ["spins/invdes/problem_graph/log_tools/loader.py:get_single_monitor_data", "spins/invdes/problem_graph/log_tools/loader.py:get_monitor_data"]}
{"id": "C82", "title": "Polygons and boxes of a GDS layer", "statement": "Extracting layers gives for every layer the polygons of the sets on it, in file order, and nothing for a layer without sets; a set with polygons on several layers is attributed to the layer of its first. The bounding boxes of a layer are the smallest axis-parallel boxes around its polygons in nanometres, one each, and a box's center and extents describe that box.", "quantifier": "all cells and polygons", "why_tests_cant": "unbounded lists and real-valued vertices", "anchors": ["spins/gds/parse_gds.py:GDSImport.get_polygons", "spins/gds/parse_gds.py:GDSImport.get_bounding_boxes"]}
{"id": "C83", "title": "Coverage of pixels by a polygon", "statement": "Rastering a polygon whose vertices do not all have the same x gives, for every cell of the grid, the absolute value of the average over the cell of the polygon's winding number, also where the polygon leaves the grid, touches grid lines or repeats vertices. For a polygon that winds at most once, and one way, around every point this is the fraction of the cell's area inside it, between 0 and 1. Orientation and starting vertex do not matter. Grids without a cell and empty polygons give a ValueError. Vertices on one vertical line can report covered area though they enclose none, and the lobes of a self-crossing polygon cancel.", "quantifier": "all polygons and increasing grids", "why_tests_cant": "real-valued vertices and areas, unbounded polygons and grids", "anchors": ["spins/gridlock/float_raster.py:raster_2D", "spins/gridlock/float_raster.py:_expand_polygon_vertices", "spins/gridlock/float_raster.py:_compute_intersections"]}
{"id": "C84", "title": "Gradients of numeric functions", "statement": "For a graph of goos functions (variables, constants, +, *, **, abs, dot, norm, max, sigmoid, slice, conj, cast, and nodes whose own grad is right) that computes one real number, get_grad of the variables succeeds and returns arrays of the form of their values; along every differentiable motion of the variables the value is defined nearby and its derivative is what these arrays give (twice the real part for complex variables), and for real variables every entry is the partial derivative. This holds where all functions can be differentiated, moving inputs of sums and products are neither broadcast nor turned complex, constants receive gradients of one size, and at most one input of a sum besides the first can notice that all inputs were given the same array. It fails otherwise: x + y + z + y*y gives a wrong gradient for z, a scalar variable times a vector gets a gradient of the vector's length, a constant multiplied with vectors of two lengths makes the gradient raise ValueError, and a real variable multiplied by a complex number gets half the gradient.", "quantifier": "all graphs, values, motions and schedules", "why_tests_cant": "derivatives over the reals, unbounded graphs, aliasing of gradient arrays", "anchors": ["spins/goos/math.py", "spins/goos/graph_executor.py:eval_grad", "spins/goos/flows.py"]}
{"id": "C85", "title": "Arithmetic with goos functions", "statement": "Sums, differences, products, quotients, negatives and natural powers formed with Python operators from goos functions, numbers and arrays evaluate, where they evaluate, to the operation applied entry by entry (a single entry standing for all), however the operators merge nested sums and products; quotients have no zero divisor; real operands give real results. A sum (product) evaluates exactly if the values of all summands (factors) of both sides are of one size or at most one of them has more than one entry. So x + y + 1, 2*(x*y), -(x*y) and 1 - x*y raise ValueError for vectors x and y although x + y and x*y evaluate.", "quantifier": "all expressions, operands and environments", "why_tests_cant": "unbounded nesting of expressions and real-valued entries", "anchors": ["spins/goos/math.py:Function", "spins/goos/math.py:Sum", "spins/goos/math.py:Product", "spins/goos/math.py:find_dominant_numeric_flow"]}
{"id": "C86", "title": "Adjoint gradients of simulations", "statement": "A simulation returns the fields of its solver for the permittivity it is given, whatever it was asked before. Its grad returns the vector whose product with any velocity is the rate of change of the real part of the given linear function of the fields, along every differentiable curve of permittivities. For an objective built from a parametrized permittivity, a simulation and the absolute value of an overlap, and for the squared distance of the permittivity from a reference, the vector returned is the gradient of the objective with respect to the parameters; for the overlap this needs a permittivity at which Maxwell's equations have one solution and an overlap that is not zero.", "quantifier": "all grids, PML, frequencies, Bloch phases, sources, permittivities, parameters, overlaps, histories of calls and curves", "why_tests_cant": "derivatives of the solution of a linear system of unbounded size, over the reals", "anchors": ["spins/invdes/problem_graph/creator_em.py:FdfdSimulation", "spins/invdes/problem_graph/creator_em.py:Epsilon", "spins/invdes/problem_graph/creator_em.py:OverlapFunction", "spins/invdes/problem_graph/creator_em.py:DiffEpsilon"]}
{"id": "C87", "title": "Gradient of the power through a plane", "statement": "For an objective built from a parametrized permittivity, a simulation and the power through a plane, the vector returned as gradient with respect to the parameters is exactly half the gradient of the objective.", "quantifier": "all grids, planes, sources, permittivities, parameters and histories of calls", "why_tests_cant": "derivatives of the solution of a linear system of unbounded size, over the reals", "anchors": ["spins/invdes/problem_graph/functions/poynting.py:PowerTransmissionFunction", "spins/invdes/problem_graph/creator_em.py:Epsilon.grad"]}
{"id": "C88", "title": "The simulation node of goos", "statement": "Evaluating a goos simulation returns for each requested output the permittivity, the fields or the overlap belonging to the structure it is given, driven by all sources, except that waveguide and dipole sources and waveguide overlaps remain those of the first structure the node ever evaluated, so that the value at a structure depends on the history. After an evaluation the gradient at that structure is the complex derivative of the given combination of overlaps along every differentiable curve of permittivities that leaves the beams of Gaussian sources unchanged. An overlap without a gradient makes the gradient raise AttributeError, a gradient for fields or permittivity TypeError. A symmetry gives NotImplementedError with the direct solver, and a real permittivity TypeError.", "quantifier": "all grids, PML, frequencies, sources, outputs, structures and histories of evaluations", "why_tests_cant": "derivatives of the solution of a linear system of unbounded size; unbounded histories", "anchors": ["spins/goos_sim/maxwell/simulate.py:SimulateNode"]}
{"id": "C89", "title": "Contours exported to GDS", "statement": "Exporting contours (polygons of which any two are nested or disjoint) to GDS ends and writes polygons that cover once exactly the points inside an odd number of contours, provided that among contours containing others an outer one never has fewer polygons directly inside than one within it. Otherwise the export may never end (a ring whose island has two holes) or silently lose a ring. Coordinates are divided by 1000; extra structures are written with their numbers unchanged. A polygon without vertices gives IndexError.", "quantifier": "all families of contours and extra structures", "why_tests_cant": "unbounded families and nesting; non-termination", "anchors": ["spins/gds/gen_gds.py:gen_gds"]}
{"id": "C90", "title": "Eigenvectors are waveguide modes", "statement": "If a vector v with wavenumber beta satisfies the eigenvalue equation of the waveguide operator, the E and H fields that v2e and v2h make from it satisfy all six of Maxwell's equations on the grid for a wave e(x, y) exp(-i beta z), for anisotropic permittivity and permeability and any cell sizes.", "quantifier": "all cross-sections, cell sizes, materials, frequencies and eigenvectors", "why_tests_cant": "unbounded grids and complex values", "anchors": ["spins/fdfd_tools/waveguide.py:operator", "spins/fdfd_tools/waveguide.py:v2e", "spins/fdfd_tools/waveguide.py:v2h"]}
{"id": "C91", "title": "Unidirectional sources", "statement": "The current that compute_source returns for the fields in a plane emits to one side only: for every field that solves Maxwell's equations in the cells on that side, minus this field there and zero elsewhere solves the wave equation with this current, at every cell except the first and last planes along the axis, provided that H times the phase of one cell is the field one cell back and that dxes[0] one cell back equals dxes[1] along the axis. The emitted field has the opposite sign of the mode.", "quantifier": "all grids, axes, directions, planes, materials and fields", "why_tests_cant": "equality of complex fields on unbounded grids", "anchors": ["spins/fdfd_solvers/waveguide_mode.py:compute_source"]}
{"id": "C92", "title": "Sources from modes", "statement": "For a waveguide that does not change along its axis on a grid with equal cells along it, the fields from solve_waveguide_mode continue along the waveguide with the factor exp(-+ i k d) per cell, the two curl equations hold for the continuation up to terms proportional to the dispersion error of k, and the current from compute_source emits minus the mode to one side up to a current proportional to that error. The error vanishes exactly if 2 sin(k d / 2) / d = beta. Backwards this needs real materials and wavenumber.", "quantifier": "all grids, axes, directions, planes, materials, modes and wavenumbers", "why_tests_cant": "equality of complex fields on unbounded grids", "anchors": ["spins/fdfd_solvers/waveguide_mode.py:solve_waveguide_mode", "spins/fdfd_solvers/waveguide_mode.py:compute_source"]}
{"id": "C93", "title": "Correction of the wavenumber", "statement": "For every mode that the grid resolves (beta d at most pi), the wavenumber that fdfd_solvers returns as corrected for numerical dispersion has a larger dispersion error than the uncorrected one, and it is real even if the mode decays, so the emitted wave does not decay. The correction of fdfd_tools makes the error smaller on a grid with cells of size 1.", "quantifier": "all wavenumbers and cell sizes", "why_tests_cant": "real-valued wavenumbers", "anchors": ["spins/fdfd_solvers/waveguide_mode.py:solve_waveguide_mode_2d", "spins/fdfd_tools/waveguide_mode.py:solve_waveguide_mode_2d"]}
{"id": "C94", "title": "Phase of waveguide sources", "statement": "build_waveguide_source returns the same current (or raises the same error) if the eigenvector that the eigenvalue solver finds is multiplied by any complex number except zero. The current for power p is sqrt(p) times the current for power 1.", "quantifier": "all grids, slices, materials, modes, factors and powers", "why_tests_cant": "complex factors over the reals, unbounded grids", "anchors": ["spins/fdfd_solvers/waveguide_mode.py:build_waveguide_source", "spins/fdfd_tools/waveguide.py:normalized_fields"]}
{"id": "C95", "title": "Conservation of power", "statement": "If frequency, materials and cell sizes are real and the fields satisfy both curl equations without current in a plane, the power through the face before the plane equals the power through the face behind it, for every axis; the power pairs E at an index with H at the index before, weighted with the areas of their cells.", "quantifier": "all grids with cells of any sizes, materials, axes, planes and fields", "why_tests_cant": "sums over unbounded grids", "anchors": ["spins/fdfd_tools/operators.py:curl_e", "spins/fdfd_tools/operators.py:curl_h", "spins/fdfd_tools/functional.py"]}
{"id": "C96", "title": "Normalized modes", "statement": "On a cross-section of equal cells, normalized_fields returns fields that carry power 1 (or raises AssertionError if the mode carries no power forward), provided H_y does not vary along x and H_x does not vary along y. In general it does not, because it pairs E_x with H_y one cell over: there is a mode of free space whose normalized fields carry power 2, and a mode carrying power forward for which AssertionError is raised.", "quantifier": "all grids, materials and eigenvectors", "why_tests_cant": "sums of complex fields over unbounded grids", "anchors": ["spins/fdfd_tools/waveguide.py:normalized_fields"]}
{"id": "C97", "title": "Plane waves in free space", "statement": "The field a plane wave source is made from is sqrt(power) e exp(-i k n.p) at the place p of each field component, with k = omega sqrt(eps), eps the average permittivity of the source region, n the direction of propagation and e the polarization; the direction is turned from the normal by theta about the default polarization and by psi about the normal, e and n are perpendicular unit vectors, the component of n along the normal is polarity cos(theta), and without angles e is along the axis that follows the normal. The magnetic field is the one that belongs to it on the grid, for every choice of the normal.", "quantifier": "all grids, places, permittivities, frequencies, axes, polarities and angles", "why_tests_cant": "real angles and places, unbounded grids", "anchors": ["spins/fdfd_tools/free_space_sources.py:plane_wave_z_axis_x_pol", "spins/fdfd_tools/free_space_sources.py:scalar2rotated_vector_fields", "spins/fdfd_tools/free_space_sources.py:rotation_matrix"]}
{"id": "C98", "title": "Gaussian beams in free space", "statement": "build_gaussian_source returns the current of the fundamental Gaussian beam with waist w0 in the direction given by the angles. The waist lies at center if the normal is z; for another normal it lies at the point with the entries of center permuted, so that in the source plane the beam can be weaker at its center than beside it.", "quantifier": "all grids, places, permittivities, frequencies, waists, centers, axes, polarities and angles", "why_tests_cant": "complex fields over the reals, unbounded grids", "anchors": ["spins/fdfd_tools/free_space_sources.py:gaussian_beam_z_axis_x_pol", "spins/fdfd_tools/free_space_sources.py:build_gaussian_source"]}
{"id": "C99", "title": "Power of free space sources", "statement": "The power of the Gaussian beam within radius r of its axis is power (1 - exp(-2 r^2 / w^2)) at any distance from the waist, w being the width there, so its whole power is the one asked for. build_plane_wave_source ignores the power asked for: any positive power gives the same current (or the same error), cut from a plane wave for which the sum of E x H* over the source window without borders has absolute value 1.", "quantifier": "all grids, places, permittivities, frequencies, waists, axes, polarities, angles, borders and powers", "why_tests_cant": "integrals over a plane; real powers; unbounded grids", "anchors": ["spins/fdfd_tools/free_space_sources.py:gaussian_beam_z_axis_x_pol", "spins/fdfd_tools/free_space_sources.py:build_plane_wave_source"]}
{"id": "C100", "title": "Free space sources emit to one side", "statement": "If the source covers the whole section of the grid and its field solves the wave equation on the lit side, the field there and zero on the other side is the response to the current, in every plane but the first and last of the grid. A straight plane wave on a grid of equal cells h misses the wave equation of its medium by the relative amount k^2 - (2 - 2 cos(k h)) / h^2, which is positive and at most k^4 h^2 / 12. A source whose plane is the first plane of the grid is zero, without any message.", "quantifier": "all grids, axes, polarities, permittivities, frequencies and fields", "why_tests_cant": "equality of complex fields on unbounded grids", "anchors": ["spins/fdfd_tools/free_space_sources.py:build_plane_wave_source", "spins/fdfd_tools/free_space_sources.py:build_gaussian_source"]}
{"id": "C101", "title": "Free space sources change the list of slices they are given", "statement": "A second call of build_plane_wave_source with the list of slices of a successful call raises ValueError. Repeated calls of build_gaussian_source with one list place the source in the same plane for polarity 1, and one plane further back at every call for polarity -1.", "quantifier": "all arguments and any number of calls", "why_tests_cant": "unbounded numbers of calls", "anchors": ["spins/fdfd_tools/free_space_sources.py:build_plane_wave_source", "spins/fdfd_tools/free_space_sources.py:build_gaussian_source"]}
{"id": "C102", "title": "Borders of plane wave sources", "statement": "The factor that tapers a plane wave lies between 0 and 1; it is 1 in the window without its borders, 0 outside the window and, if twice the border is less than the size minus one, 0 at the edges of the window. If twice the border is at least the size of the window (and that is not 1), ValueError is raised instead of ignoring the border as documented. If the borders leave one cell, they are accepted but not applied: the wave is cut off at the edges.", "quantifier": "all grids, windows, axes and borders", "why_tests_cant": "unbounded windows and borders", "anchors": ["spins/fdfd_tools/free_space_sources.py:build_plane_wave_source"]}
{"id": "C103", "title": "Normalization of a source by simulation", "statement": "For a linear solver and a source that emits positive power in the uniform medium with the average permittivity of the source region, normalize_source_by_sim returns a positive multiple of the source that emits exactly the power asked for in the same medium.", "quantifier": "all grids, sources, permittivities, linear solvers and powers", "why_tests_cant": "sums over unbounded grids; any solver", "anchors": ["spins/fdfd_tools/free_space_sources.py:normalize_source_by_sim"]}
{"id": "C104", "title": "Values of goos functions", "statement": "Slice with an index, an index from the end, a range, \"center\" or None returns the entry or entries Python indexing with it would select (the middle entry for \"center\", everything for None), an empty array for an index outside, and raises ValueError for anything else; only the index -1 returns an empty array instead of the last entry. Max returns at every position an upper bound of the inputs that is attained by one of them, and raises ValueError exactly if there is no input or two have different sizes. norm returns the nonnegative number whose order-th power is the sum of these powers of the absolute values, abs the nonnegative numbers whose squares are z times its conjugate, dot the sum of products, Sigmoid the numbers s with s (1 + exp(-x)) = 1, conj the conjugates.", "quantifier": "all arrays, orders, numbers of inputs and slices", "why_tests_cant": "real and complex numbers, unbounded arrays", "anchors": ["spins/goos/math.py:Slice", "spins/goos/math.py:Max", "spins/goos/math.py:Norm", "spins/goos/math.py:AbsoluteValue", "spins/goos/math.py:DotProduct", "spins/goos/math.py:Sigmoid", "spins/goos/math.py:Conjugate"]}
{"id": "C105", "title": "Mode overlaps are flux pairings", "statement": "The overlap that simulations are given for a waveguide mode, summed against any field F over all cells and components, is the flux through the window of F paired with the mode and of the mode paired with F (the magnetic field of F being the one that Maxwell's equations give it), divided by the absolute value of the pairing of the mode with itself, times the root of the power and a phase. Errors are those of finding the mode, and division by zero exactly if the mode pairs to zero with itself.", "quantifier": "all grids, windows, axes, polarities, materials, frequencies, powers, eigenvectors and fields F", "why_tests_cant": "sums over unbounded grids of complex fields", "anchors": ["spins/fdfd_solvers/waveguide_mode.py:compute_overlap_e", "spins/fdfd_solvers/waveguide_mode.py:build_overlap", "spins/fdfd_tools/operators.py:poynting_e_cross", "spins/fdfd_tools/operators.py:poynting_h_cross"]}
{"id": "C106", "title": "Mode overlaps measure the amplitude of the mode", "statement": "If the field near the plane of the overlap is a times the mode carried along the axis, the overlap has absolute value |a| times the root of the power, whatever the field is elsewhere. In a uniform waveguide, the wave emitted by the source of a mode without field along the axis, with the wavenumber of the grid, has overlap of absolute value 1 with the same mode further along on the side the source emits to.", "quantifier": "all grids, cross-sections, axes, polarities, materials, frequencies, amplitudes and modes", "why_tests_cant": "complex fields on unbounded grids", "anchors": ["spins/fdfd_solvers/waveguide_mode.py:compute_overlap_e", "spins/fdfd_solvers/waveguide_mode.py:build_overlap", "spins/fdfd_solvers/waveguide_mode.py:compute_source"]}
{"id": "C107", "title": "Mode overlaps are local", "statement": "The overlap in plane s depends only on the field in the planes s, s + 1 and s + 2 across the axis, counted periodically; the overlap vector is zero in all other planes.", "quantifier": "all grids, windows of one plane, axes, polarities, materials, frequencies and fields", "why_tests_cant": "unbounded grids", "anchors": ["spins/fdfd_solvers/waveguide_mode.py:compute_overlap_e"]}
{"id": "C108", "title": "Mode overlaps do not depend on the eigenvector found", "statement": "Two multiples of one eigenvector, with any complex factor but zero between them, give the same overlap vector or the same error.", "quantifier": "all grids, windows, axes, polarities, materials, frequencies, powers, eigenvectors and factors", "why_tests_cant": "the eigenvalue solver returns an arbitrary multiple", "anchors": ["spins/fdfd_solvers/waveguide_mode.py:build_overlap", "spins/fdfd_tools/waveguide.py:normalized_fields"]}
{"id": "C109", "title": "Mode overlaps reject the mode travelling backward", "statement": "By its documentation compute_overlap_e implements the orthogonality relation of modes, by which the overlap of a forward mode with the same mode travelling backward vanishes. It does not: with six cells per wavelength the overlap with the backward wave has absolute value 1/sqrt(7) where the forward wave has 1.", "quantifier": "there is a grid, a mode and a solution of the wave equation travelling backward", "why_tests_cant": "complex fields; the exact size of the spurious overlap", "anchors": ["spins/fdfd_solvers/waveguide_mode.py:compute_overlap_e", "spins/fdfd_tools/operators.py:poynting_e_cross"]}
{"id": "C110", "title": "Cubic interpolation passes through the control points", "statement": "For increasing coarse coordinates, at least three along each axis (two along a periodic axis), and every fine grid within them, the interpolation matrices exist, and the interpolated value at a fine point depends on this point and the control values alone. At a coarse point it is the control value (on a periodic axis the last coarse point takes the value of the first). Control values taken from a polynomial of degree at most two in each coordinate are reproduced exactly everywhere on axes that are not periodic, and equal control values on any axes. A fine grid that begins before or ends after the coarse grid raises ValueError.", "quantifier": "all coarse grids, uniform or not, all fine grids within, all periodicities and control values", "why_tests_cant": "real coordinates and values; unbounded grids", "anchors": ["spins/invdes/parametrization/cubic_utils.py:CubicMatrices", "spins/invdes/parametrization/cubic_utils.py:makeDmatrix_quad", "spins/invdes/parametrization/cubic_utils.py:Phi2fii"]}
{"id": "C111", "title": "Cubic interpolation is smooth", "statement": "The interpolated surface has at every point of the coarse area, also on the lines between coarse cells and at the border, a slope along x and along y, and these are what the other two interpolation matrices compute.", "quantifier": "all coarse grids, uniform or not, all points within, all periodicities and control values", "why_tests_cant": "limits; a surface made of pieces", "anchors": ["spins/invdes/parametrization/cubic_utils.py:CubicMatrices"]}
{"id": "C112", "title": "Symmetric parametrizations reach exactly the symmetric arrays", "statement": "For a grid whose size fits the number of periods, the arrays of control values that a vector of variables can produce are exactly those that repeat after every period and are mirror symmetric along the axes that ask for it, and no two vectors produce the same array. Reading the variables back from the array produced on the whole grid gives the same vector. A size that is not a multiple of the number of periods raises ValueError.", "quantifier": "all grid sizes, symmetries, periodicities, numbers of periods and vectors", "why_tests_cant": "unbounded matrices", "anchors": ["spins/invdes/parametrization/cubic_utils.py:make_geometry_matrix_cubic", "spins/invdes/parametrization/cubic_utils.py:symmetry_matrix", "spins/invdes/parametrization/cubic_utils.py:periodic_matrix"]}
{"id": "C113", "title": "Cubic structures are mirrored and repeated", "statement": "A CubicParam with mirror symmetry along an axis, on coarse and fine coordinates mirrored at the same point, has a structure mirrored at this point for every vector and steepness, provided the axis is periodic exactly if it has a number of periods. With a number of periods and equally spaced coarse coordinates, the structure repeats after the length of a period. An axis declared periodic without a number of periods gives a structure that is not mirrored.", "quantifier": "all coarse and fine grids, vectors, steepnesses, symmetries and periods; a witness for the last sentence", "why_tests_cant": "real coordinates and values; unbounded grids", "anchors": ["spins/invdes/parametrization/parametrization.py:CubicParam", "spins/invdes/parametrization/cubic_utils.py:CubicMatrices"]}
{"id": "C114", "title": "Values and gradient of the cubic parametrization", "statement": "With a steepness other than zero all values of the structure lie strictly between 0 and 1, so neither is ever reached: equal control values a give 1/(1+exp(-k(2a-1))) everywhere. With steepness zero equal control values a give a, but control values within the bounds 0 and 1 can give a structure above 1. The gradient applied to a direction is the derivative of the structure along it. A vector of the wrong length raises ValueError. project returns the nearest vector within the bounds and keeps its length and the bounds.", "quantifier": "all grids, vectors, directions, steepnesses, bounds; a witness for the value above 1", "why_tests_cant": "limits; real numbers; unbounded grids", "anchors": ["spins/invdes/parametrization/parametrization.py:CubicParam"]}
{"id": "C115", "title": "Cubic parametrizations made for a design area", "statement": "For a design area of d0 x d1 pixels the fine grid has one centred point for every pixel; along an axis that is not periodic the coarse grid is centred, has the spacing asked for and covers the fine grid. Cubic parametrizations made by goos always exist if a period is longer than half the spacing, take the number of variables announced, and their structures have d0 d1 pixels, are mirrored where asked for and repeat after every period if this is a whole number of pixels, for every vector and steepness. Those of optimization plans have the same properties, but exist only if the number of coarse cells, (d - 1) / undersample rounded, is a multiple of the number of periods, and raise ValueError otherwise: 10 pixels in two periods undersampled by 3 are refused.", "quantifier": "all sizes, undersampling factors, symmetries, periods, vectors and steepnesses", "why_tests_cant": "real coordinates; unbounded sizes", "anchors": ["spins/goos/compat.py:create_spins_param", "spins/goos/compat.py:create_cubic_param", "spins/invdes/problem_graph/creator_param.py:create_cubic_or_hermite_levelset"]}
{"id": "C116", "title": "Options and logs of scipy optimizations in a plan", "statement": "A scipy optimization of a plan logs its start, one entry with consecutive iteration numbers for every iterate scipy reports (only if callback monitors are given), and its end, and scipy receives exactly the options of the plan that are set and not zero, so a maximal number of iterations of zero means no limit. A logged vector is the last one at which scipy evaluated a function, which need not be the iterate reported. Without options the run logs its start and raises AttributeError, and so it does with a plain dictionary, in which an option of zero raises RuntimeError at once.", "quantifier": "all optimizers (arbitrary strategies of evaluations and reports), options, functions, starting vectors; a witness for the point that is not the iterate", "why_tests_cant": "behaviour of every optimizer scipy might use", "anchors": ["spins/invdes/problem_graph/creator_opt.py:ScipyOptimizer", "spins/invdes/optimization/scipy_optimizer.py:ScipyOptimizer"]}
{"id": "C117", "title": "Resumed scipy optimizations of a plan", "statement": "Restarting a scipy optimization of a plan from any entry of its log gives the rest of the log and the same result, if the optimizer goes on in the same way from the logged vector with a limit reduced by the iterations done; without callback monitors this holds for every optimizer. Plans of such optimizations and of changes of the sigmoid strength survive any number of crashes at any file write with the same final values and files. An optimizer with memory, which every quasi-Newton method has, ends elsewhere after a restart.", "quantifier": "all optimizers, options, functions, plans and crash histories; a witness for the last sentence", "why_tests_cant": "all crash histories; all optimizers", "anchors": ["spins/invdes/problem_graph/creator_opt.py:ScipyOptimizer", "spins/invdes/problem_graph/solver.py:run_plan", "spins/invdes/problem_graph/solver.py:restore_workspace"]}
{"id": "C118", "title": "Iteration limit of resumed plan optimizations", "statement": "However often a scipy optimization of a plan is interrupted and restarted from its log, no iteration number exceeds the limit of the plan, provided the optimizer respects the limit it is given.", "quantifier": "all optimizers, options, functions and histories of interruptions", "why_tests_cant": "all histories of interruptions", "anchors": ["spins/invdes/problem_graph/creator_opt.py:ScipyOptimizer", "spins/invdes/optimization/scipy_optimizer.py:ScipyOptimizer"]}
{"id": "C119", "title": "Penalty optimizations in a plan", "statement": "A penalty optimization of a plan logs the vectors reported with their cycle and weight; options that are not set, or set to zero, have their defaults, so zero cycles run ten. However often it is interrupted and restarted, the weight logged is mu0 raised to tau as often as the cycle number says, and the cycles are those configured. A restart gives the rest of the log and the same result if the optimizer goes on in the same way from the reported vector with slack variables of zero and a fresh iteration limit. Otherwise it need not: slack variables are lost, and a restarted run can do more iterations than its cycles and limit allow.", "quantifier": "all optimizers, options, objectives, constraints and histories of interruptions; witnesses for the last sentence", "why_tests_cant": "all histories of interruptions; all optimizers", "anchors": ["spins/invdes/problem_graph/creator_opt.py:PenaltyOptimizer", "spins/invdes/optimization/constrained_optimizer.py:PenaltyOptimizer"]}
{"id": "C120", "title": "Adjoint gradients of simulation objectives", "statement": "For every objective of a simulation that differentiates its own function of fields and structure correctly, the gradient computed with the adjoint simulation is the gradient of the value with respect to the parameters, if the parametrization differentiates its structure correctly, the simulation is off resonance and neither the objective nor the design reaches into absorbing layers. Fields exist there. Value and gradient do not depend on what the caches of the two simulations hold.", "quantifier": "all grids, Bloch phases, frequencies, sources, structures, parametrizations, objectives and histories of simulations", "why_tests_cant": "all grids and objectives; exact derivatives", "anchors": ["spins/invdes/problem/emobjective.py:EmObjective", "spins/invdes/problem/simulation.py:FdfdSimulation", "spins/invdes/problem/simulation.py:AdjointFdfdSimulation"]}
{"id": "C121", "title": "Overlap objectives with a target amplitude", "statement": "Overlap evaluates to the distance of the amplitude of its mode from the target, PhaseOverlapObjective to the sum of the squared distances over its modes. Their gradients are exact wherever no amplitude equals its target, and not a number where one does. The two classes read the vector of an arbitrary mode differently, one conjugating it: the same mode can be on target for one and off target for the other.", "quantifier": "all grids, modes, targets, parametrizations, structures off resonance and histories of simulations; a witness for the last sentence", "why_tests_cant": "all fields and modes; exact derivatives", "anchors": ["spins/invdes/problem/emobjective.py:Overlap", "spins/invdes/problem/emobjective.py:PhaseOverlapObjective"]}
{"id": "C122", "title": "Overlap objectives with a range of powers", "statement": "BasicOverlapObjective evaluates to the sum over its modes of the distance of the amplitude from the range between the square roots of the smallest and the largest power given, raised to the exponent; it is never negative, and zero exactly when all amplitudes are within their ranges. The gradient returned is exact for even exponents and the opposite of the gradient for odd exponents, and not a number where an amplitude is zero. With exponent 1 the ends of the range are excepted.", "quantifier": "all grids, modes, powers, exponents of one or more, parametrizations, structures off resonance and histories of simulations; a witness for the wrong sign", "why_tests_cant": "all fields and exponents; exact derivatives", "anchors": ["spins/invdes/problem/emobjective.py:BasicOverlapObjective"]}
{"id": "C123", "title": "Meshes of the sphere of directions", "statement": "make_sphere_point succeeds for every number of refinements and gives 8*4^n triangles between distinct points of the unit sphere, all of them used; every direction passes through a triangle and no direction through the interiors of two; all triangles have positive area. make_half_sphere_point does the same with 4*4^n triangles for the directions of the chosen side of the plane z = 0, with all points on that side.", "quantifier": "all numbers of refinements, both sides, all directions", "why_tests_cant": "all refinements; all directions", "anchors": ["spins/invdes/problem/farfield.py:make_sphere_point", "spins/invdes/problem/farfield.py:make_half_sphere_point"]}
{"id": "C124", "title": "Selection of directions and integration of far fields", "statement": "A triangle is selected exactly if the direction of its centre is strictly between the polar bounds and, up to whole turns, between the azimuth bounds, which are excluded if at most half a turn apart and included otherwise. The full range of angles selects every triangle of the meshes. On every triangulation the power vector applied to the squared moduli of the field components is the sum over the selected triangles of area times the average over the corners of the polar and azimuthal intensities. A mesh whose last point is unused raises ValueError.", "quantifier": "all triangles with a centre off the axis, all bounds at most a turn apart, all triangulations, all fields", "why_tests_cant": "all bounds and fields", "anchors": ["spins/invdes/problem/farfield.py:triangle_selection_vector", "spins/invdes/problem/farfield.py:area_selection_vector", "spins/invdes/problem/farfield.py:points2triangles_averaging_matrix", "spins/invdes/problem/farfield.py:triangle_area_vector"]}
{"id": "C125", "title": "Spherical components of vectors", "statement": "With the default axis cart2spheric_matrix gives the radial, polar and azimuthal components of a vector and keeps lengths and angles. With the two other axes the first component is not the radial one: that of the position vector itself equals the distance only on the diagonal x = y = z.", "quantifier": "all positions but the origin, all vectors", "why_tests_cant": "all positions and vectors", "anchors": ["spins/invdes/problem/farfield.py:cart2spheric_matrix"]}
{"id": "C126", "title": "Scattering objectives", "statement": "BasicScatter evaluates to (1 - D)^2, with D the part of the power scattered in all directions that goes into the selected ones, between 0 and 1. Its gradient with respect to the parameters is exact; without scattered power value and gradient are not numbers. With a background field, or without box or plane to project from, it is built, but value and gradient raise NameError or AttributeError. DirectedPower cannot be built: it raises AttributeError for all bounds.", "quantifier": "all grids, projections, bounds, refinements, parametrizations, structures off resonance and histories of simulations", "why_tests_cant": "all fields and bounds; exact derivatives", "anchors": ["spins/invdes/problem/ffobjective.py:BasicScatter", "spins/invdes/problem/ffobjective.py:DirectedPower"]}
{"id": "C127", "title": "Adding up gradients of flows", "statement": "Adding gradients of one class with matching lengths succeeds and adds each field once for every class in the line of inheritance whose gradient has that field, so the sum is right for all gradients exactly if no class inherits a field. In the library positions and rotations of cuboids, cylinders and spheres, and positions, rotations and pixels of pixelated shapes, count double from the second use on: a graph in which a shape is used by two functions with slopes a and b gets a + 2b. A default gradient standing for a missing one is not a zero: adding an array of other than one entry to it raises ValueError. A pixelated gradient plus that of a number raises AttributeError; the reverse loses the fields of the shape. Gradients for different elements of an array do not disturb each other.", "quantifier": "all class hierarchies, all fields, lengths, values and numbers of uses; witness for the wrong sum in a graph", "why_tests_cant": "all hierarchies and numbers of uses", "anchors": ["spins/goos/flows.py:FlowMeta", "spins/goos/array.py:ArrayFlow", "spins/goos/graph_executor.py:eval_grad"]}
{"id": "C128", "title": "Constancy flags", "statement": "In graphs whose functions return single flows and where only constants are cast to constants, a flow flagged constant does not change between any two values of the variables, and one flagged frozen does not change when only variables that are not frozen do; the same for single fields. Cylinders, spheres, pixelated shapes and old-style parametrizations are never flagged constant, cuboids are if all inputs are. A node without flags of its own that returns an array of flows, such as a simulation, is always flagged constant, and so is everything computed from its elements. The flags of a group are in the order given, its flows in that of drawing.", "quantifier": "all such graphs, values and sets of frozen variables; witnesses for the failures", "why_tests_cant": "all graphs and pairs of evaluations", "anchors": ["spins/goos/graph_executor.py:_eval_flags", "spins/goos/shapes.py:Cuboid", "spins/goos/shapes.py:GroupShape", "spins/goos/array.py:ArrayFlow"]}
{"id": "C129", "title": "Renaming shapes", "statement": "A node made by renaming a cuboid, cylinder, sphere, pixelated shape or old-style parametrization, by casting to one of these classes, by casting one of these shapes to a more general class, or by taking such a shape out of a group, cannot be evaluated: in every graph its evaluation raises AttributeError or IndexError. Renaming any other node keeps its value.", "quantifier": "all graphs, inputs, shapes and values", "why_tests_cant": "all graphs", "anchors": ["spins/goos/generic.py:cast", "spins/goos/generic.py:rename", "spins/goos/shapes.py:GroupShape", "spins/goos/graph_executor.py:_eval_flags"]}
{"id": "C130", "title": "Benchmark problems", "statement": "Each builder of a benchmark problem returns with it the only feasible point within the bounds of the parametrization at which the objective is smallest, for all instances, except: the second instance of the quartic returns a point that is smallest only among those nearer than 3; Rosenbrock's function with parameters a and b returns the minimum exactly if a^2 <= 10 and b > 0. The gradients of the plane, the quadratic and the sphere are those of their values.", "quantifier": "all instances, all real a and b, all feasible points, all dimensions of the gradients", "why_tests_cant": "all feasible points", "anchors": ["spins/invdes/optimization/problems.py:build_rosenbrock_function", "spins/invdes/optimization/problems.py:build_single_variable_quartic", "spins/invdes/optimization/problems.py:build_constrained_problem_list", "spins/invdes/optimization/problems.py:SphereObjective"]}
{"id": "C131", "title": "Convergence of gradient descent", "statement": "Plain gradient descent on a bounded parametrization stays within the bounds; for an objective whose gradient changes at rate at most L and step size a with a L <= 2 the values never increase and the squared step lengths add up to at most the decrease over 1/a - L/2. A point is left where it is exactly if no feasible direction leads down. For convex objectives and a L <= 1, after k iterations the value is within |x0 - y|^2 / (2 a k) of that of any feasible y; with curvature at least mu the squared distance to the minimum shrinks by 1 - a mu per iteration. With larger steps values can grow without limit. With normalized gradients and no bounds every step has length a, so the run does not converge.", "quantifier": "all dimensions, bounds, smooth objectives, starts, step sizes and numbers of iterations; witness for steps too large", "why_tests_cant": "all objectives and numbers of iterations", "anchors": ["spins/invdes/optimization/gradient_descent.py:GradientDescent", "spins/invdes/parametrization/parametrization.py:DirectParam"]}
{"id": "C132", "title": "Termination of adaptive gradient descent", "statement": "For an objective whose gradient changes at rate at most L, every iteration of adaptive gradient descent ends, whatever the step size it starts with, without increasing the objective; the step taken is the current one or longer than 2 f / L, with f the factor of a failure. Runs with a limit on the number of iterations end, and with a success factor of at least one the step size stays at least the first one or above 2 f / L.", "quantifier": "all dimensions, bounds, smooth objectives, starts, step sizes, factors and numbers of iterations", "why_tests_cant": "all objectives; unbounded loops", "anchors": ["spins/invdes/optimization/gradient_descent.py:AdaptiveGradientDescent"]}
{"id": "C133", "title": "Modes of photonic crystals", "statement": "A mode returned by the photonic-crystal mode solver is a field, not zero, that satisfies the source-free wave equation of the FDFD simulation (mu = 1 whatever mu is passed) at the returned frequency; for the magnetic operator the electric field computed from it does too, and converts back. Every resonance corresponds to an eigenvector handed to the eigenvalue routine. With positive cells and permittivity and a real Bloch vector all frequencies are real and at least zero, modes of different frequency are orthogonal (electric: weighted with permittivity and volume), and two permittivities' modes obey the exact frequency-shift relation. An initial vector gives one mode whatever number is requested. The electric operator raises for any number of modes other than one; unknown operators raise ValueError. The electric matrix is Hermitian on uniform cells but not on others.", "quantifier": "all grids, cell sizes, Bloch factors, permittivities and eigenvalue routines that return eigenpairs or raise; witness for cells of different size", "why_tests_cant": "all grids and permittivities; the eigenvalue routine is external", "anchors": ["spins/fdfd_solvers/phc_mode_solver.py:mode_solver", "spins/fdfd_solvers/phc_mode_solver.py:efield_operator", "spins/fdfd_solvers/phc_mode_solver.py:hfield_operator"]}
{"id": "C134", "title": "Contexts of node types", "statement": "Registering a node type in a context succeeds iff the context does not have it yet, and then changes this entry of this context only; otherwise it raises ValueError and changes nothing. Whatever a program does afterwards, the entry stays in its context. Lookups on a stack of contexts give the entry of the topmost context that has one (none: None for optplan, ValueError for goos), and the dictionary of all types agrees with the lookups. Registrations between the push of a new context and its pop leave all lookups as they were before. If all creators are given, model and creator of a lookup come from the same registration; with a creator left out the model of an upper context is paired with the creator of a lower one. On an empty stack registering raises (AttributeError in optplan, IndexError in goos).", "quantifier": "all sequences of creating, pushing and popping contexts and registering; all names", "why_tests_cant": "quantifies over all sequences of operations and all interleavings of contexts", "anchors": ["spins/invdes/problem_graph/optplan/context.py:OptplanContext", "spins/invdes/problem_graph/optplan/context.py:OptplanContextStack", "spins/goos/optplan/context.py:ContextStack"]}
{"id": "C135", "title": "The schema registry has no scopes", "statement": "Pushing a registry on the schema registry stack always raises NameError and changes nothing, so in every execution the stack holds its first registry or nothing. While it holds the first one, registering a name raises ValueError iff the name can be looked up, and a name once found stays the same. Registrations between push and pop are therefore not scoped: the pop removes everything.", "quantifier": "all sequences of operations on the registry, witness for the failing scope", "why_tests_cant": "quantifies over all sequences of operations", "anchors": ["spins/goos/schema_registry.py:SchemaRegistryStack"]}
{"id": "C136", "title": "Joining monitors", "statement": "A list of monitor descriptions is joined iff descriptions with the same joiner id agree in type, scalar and vector operation; otherwise ValueError is raised (if all have an id). The result has one entry for each id in order of first appearance, with the names of its monitors in order; each monitor is in exactly one entry. If all monitors have an id, the search by id returns the entry of this id, and None iff no monitor has it. Monitors without id are all merged in one entry named after the first (TypeError if they differ), which can hide the entry of another id.", "quantifier": "all lists of descriptions and all ids; witnesses for missing ids", "why_tests_cant": "quantifies over all lists of descriptions", "anchors": ["spins/invdes/problem_graph/log_tools/monitor_spec.py:convert_element_list", "spins/invdes/problem_graph/log_tools/monitor_spec.py:get_joined_monitor_description"]}
{"id": "C137", "title": "Simulation spaces per wavelength", "statement": "A simulation space evaluated at a wavelength gives what it would give without its cache, for any sequence of earlier evaluations, at the wavelength rounded to seven significant digits: relative error at most 5e-7, wavelengths of at most seven digits unchanged, rounding twice is rounding once; wavelengths share an instance only if they differ by at most 5e-7 of their sum; wavelength zero raises. The constructor raises ValueError for a non-uniform mesh, and whatever an evaluation at 1500 nm raises. The permittivity of the all-ones design is exactly the foreground for full_direct, and for direct and reduced in the design area. The design dimensions are those of the wavelength evaluated for the first time most recently: right if they do not depend on the wavelength (always for full_direct), else they can belong to another wavelength than the instance just returned.", "quantifier": "all wavelengths, all sequences of evaluations, all grids; witness for stale dimensions", "why_tests_cant": "quantifies over all numbers and all sequences of evaluations", "anchors": ["spins/invdes/problem_graph/simspace.py:SimulationSpace", "spins/invdes/problem_graph/simspace.py:_round", "spins/invdes/problem_graph/simspace.py:get_fg_and_bg"]}
{"id": "C138", "title": "Materials", "statement": "The permittivity drawn for a material with an index is the square of the index at every wavelength, whatever name and file say; goos agrees, and raises TypeError for every material without index. A named material has real permittivity, which is the one of the material library iff the material does not absorb there. A file gives (n - ik)^2 at each wavelength of the file (in micrometers; in nanometers times 1000), n^2 if there is no column k. A given index n + im with n > 0 draws the same permittivity as a library entry n + ik iff real parts agree and m = -k. The remaining cases (unknown name, missing file or column, nothing given) raise ValueError, and no other case does.", "quantifier": "all materials, tables, files and wavelengths; witness for the absorption of named materials", "why_tests_cant": "quantifies over all tables and interpolations through their data", "anchors": ["spins/invdes/problem_graph/simspace.py:_get_mat_index", "spins/material/material.py:Material", "spins/goos/material.py:get_material"]}
{"id": "C139", "title": "Positions, indices and slices of a grid", "statement": "pos2ind gives the cell a position is in (rounded), or that plus the part of the cell below the position; below the grid 0, from the last edge on the last cell's number; with check_bounds it raises iff a position on an axis of more than one cell is outside. ind2pos with its default round_ind=True never returns. ind2pos of pos2ind minus one half is the position again; without the subtraction, as the two are documented, the result is half a cell off on uniform cells. get_slice takes the integer part of the center first, so centers with the same integer part give the same slice; that being the lower edge of cell i it returns plane i, within cell i it weights planes i and i+1 by the part of the cell below, and raises IndexError in the last cell: at a cell's center, where the values belong, it mixes two planes. It returns only for real arrays, centers between the first and last cell center, and a sample period of 1 or at least the number of cells on both axes.", "quantifier": "all increasing edges, shifts (zero or half for Yee grids), positions, arrays; witnesses for the half cell and the mixed planes", "why_tests_cant": "quantifies over all non-uniform grids and positions", "anchors": ["spins/gridlock/grid.py:ind2pos", "spins/gridlock/grid.py:pos2ind", "spins/gridlock/grid.py:get_slice"]}
{"id": "C140", "title": "Slabs and half-space fills", "statement": "draw_slab adds one block which covers a point of the grid, ghost cells included, iff the point is within half the thickness of the center along the slab's direction, whatever the extrusion axis; a rendered cell within the slab has the slab's permittivity. fill_slab and fill_cuboid add one block covering exactly the points of the grid beyond the surface in the given direction (and within the surface's extent). On periodic axes the ghost cell is covered if the first cell is at most three times the last, otherwise part of it can be missed. Integer directions raise NameError, polarities other than 1 and -1 GridError; a surface at the grid's end along the extrusion axis raises GridError, and so does an integer surf_extent if the surface is less than half a unit from the end.", "quantifier": "all grids, extrusion axes, directions, surfaces, points; witness for periodic axes", "why_tests_cant": "quantifies over all points of all grids", "anchors": ["spins/gridlock/grid.py:draw_slab", "spins/gridlock/grid.py:fill_slab", "spins/gridlock/grid.py:fill_cuboid"]}
{"id": "C141", "title": "Derivative of an eigenfrequency", "statement": "On uniform cells with real positive permittivity and real Bloch vector: after an evaluation of an eigenfrequency simulation whose solver returned the frequency and a multiple of sqrt(eps) E, the gradient returned for d times the EigenValue output is the derivative of d times the frequency along every mode that passes continuously through E as the permittivity changes in any direction (the mode need not be simple or differentiable), and the value of the output is the frequency. If the solver returns the electric field E itself, as the output ElectricField presents it, the gradient is in general not the derivative: so at most one of the two outputs can be right for permittivities that are not constant.", "quantifier": "all uniform grids, Bloch factors, permittivities, directions, modes, earlier evaluations, outputs; witness for the second part", "why_tests_cant": "derivatives along all directions for all structures; a test compares finitely many differences", "anchors": ["spins/goos_sim/maxwell/simulate.py:SimulateEigNode.grad", "spins/goos_sim/maxwell/simulate.py:EigenValueImpl"]}
{"id": "C142", "title": "Outputs and exceptions of eigenfrequency simulations", "statement": "Values of EigenValue, ElectricField and Epsilon do not depend on earlier evaluations; an overlap keeps the mode computed from the first permittivity, so its value does. The gradient depends only on the gradient given for the last EigenValue output: gradients for other EigenValues, fields, overlaps are dropped silently, so the gradient of a sum of two EigenValue outputs is wrong. It raises NameError (UnboundLocalError) if there is no EigenValue output, AttributeError if the first of them has no gradient, TypeError if the permittivity is not the one of the last evaluation, and in all three cases changes no state. The constructor accepts only the solver maxwell_eig (local_direct_eig, which it lists as valid, raises ValueError) and a Bloch vector that is None, a list, or an array of at most one entry.", "quantifier": "all outputs, sources, solvers, sequences of evaluations, gradients", "why_tests_cant": "quantifies over all sequences of evaluations and all combinations of outputs", "anchors": ["spins/goos_sim/maxwell/simulate.py:SimulateEigNode.__init__", "spins/goos_sim/maxwell/simulate.py:SimulateEigNode.eval", "spins/goos_sim/maxwell/simulate.py:SimulateEigNode.grad"]}
{"id": "C143", "title": "Reflection symmetry in the external solver", "statement": "MaxwellSolver.solve with symmetry 1 or 2 on any set of axes: if the server returns the upper half of a field that has these reflection symmetries (components along the axis mirrored between cell centers, the others between edges with value zero at edge 0), solve returns that field, for driven problems and for each mode. Whatever the server returns is the upper half of the result, which is symmetric up to values on the planes of reflection; it has the shape of the simulation iff the numbers of cells along these axes are even. An adjoint solve with a symmetry raises ValueError unless there are at most two cells along the axis, so gradients of symmetric simulations cannot be computed; without symmetry the adjoint source is divided and the result multiplied by the products of the cell sizes as given. The array pemc of the caller is overwritten, so reusing it in a solve without symmetry sends the same boundary codes again. solver_info=True fails after every successful solve because its files are not downloaded; adjoint solves for fewer than three modes raise IndexError. The conjugate gradient method that is asked for is used only if the phase factors of all three axes are one; otherwise BiCGSTAB is.", "quantifier": "all fields, shapes, combinations of symmetries, servers, cell sizes", "why_tests_cant": "needs a running server; quantifies over all symmetric fields and shapes", "anchors": ["spins/fdfd_solvers/maxwell.py:MaxwellSolver.solve"]}
{"id": "C144", "title": "Transfer of files to the external solver", "statement": "upload_files stores every file unchanged if the first attempt succeeds. If an attempt fails with ConnectionError, the retry sends the rest of the already read file object: the server stores an empty file and no exception is raised. download_files writes the content of the first response that arrives. The loop that waits for the result ends exactly at the first round in which the request is gone and the result is there, whatever connection errors happen.", "quantifier": "all files, numbers of failed attempts, sequences of responses; witness for the empty upload", "why_tests_cant": "depends on network failures at arbitrary times", "anchors": ["spins/fdfd_solvers/maxwell.py:upload_files", "spins/fdfd_solvers/maxwell.py:download_files", "spins/fdfd_solvers/maxwell.py:MaxwellSolver.solve"]}
{"id": "C145", "title": "Plane waves and the dispersion relation of the grid, with skewed periods", "statement": "operators.e_full(omega, dxes, eps, bloch_vec=k, shift_orthogonal=s) on cells of one size per axis: exp(-i k.r) passes all boundaries without a seam, also where a period is shifted sideways by s cells: each derivative matrix multiplies it by its difference quotient. In a homogeneous medium a transverse plane wave is multiplied by sum (2/h sin(k h/2))^2 - omega^2 eps, so it is a resonance iff omega^2 eps equals that sum, independently of the shape and skew of the cell. Holds for shifts of at most the number of cells and axes that are not both shifted and shifted towards; a longer shift gives wrong phases; a shift along the axis itself raises ValueError.", "quantifier": "all shapes, cell sizes, real Bloch vectors, shifts, amplitudes, complex frequencies; witness for longer shifts", "why_tests_cant": "phases are real numbers and the boundary is crossed in combinations of axes and shifts which tests do not enumerate", "anchors": ["spins/fdfd_tools/operators.py:rotation_bloch_shift", "spins/fdfd_tools/operators.py:deriv_forward_shift", "spins/fdfd_tools/operators.py:deriv_back_shift", "spins/fdfd_tools/operators.py:e_full"]}
{"id": "C146", "title": "Conservation laws with skewed periods", "statement": "With sideways shifts and cells of one size per axis: the rotation by one cell and the rotation back undo each other; the divergence of every curl is zero; the wave operator is Hermitian for real Bloch vector, frequency, permittivity and permeability, with any PEC and PMC masks; every resonance of a medium with positive permittivity has a real frequency. On cells of different sizes the divergence of a curl is not zero when there is a shift.", "quantifier": "all shapes, shifts, fields, materials, masks; witness for cells of different sizes", "why_tests_cant": "statements about all fields and all shifts", "anchors": ["spins/fdfd_tools/operators.py:rotation_bloch_shift", "spins/fdfd_tools/operators.py:curl_e", "spins/fdfd_tools/operators.py:curl_h", "spins/fdfd_tools/operators.py:e_full"]}
{"id": "C147", "title": "Imported overlap: the data between the points of the file", "statement": "An ImportOverlap gives one complex value per component and grid cell. A file whose coordinates strictly increase and whose three fields have the shape of the coordinates is accepted, every other complete file raises ValueError; so does one whose fields lack the last axis because the writing program dropped an axis of length one. The value is zero at every position the file does not cover. In each cell of the file, boundaries included, it is the one function affine in each coordinate that takes the values of the file at the eight corners, evaluated at the position of the component; hence exact at the points of the file, and never above or below the values in the file and zero.", "quantifier": "all files, centres, grids with increasing edges, component shifts and cells", "why_tests_cant": "the claim is about all positions relative to the points of the file, including ties, and about all fields", "anchors": ["spins/invdes/problem_graph/creator_em.py:ImportOverlap.__call__"]}
{"id": "C148", "title": "Imported overlap: files with one point along an axis", "statement": "A file with a single coordinate along an axis is taken to fill the width of the grid's first cell around it, with constant data. On a grid of equal cells all planes but the one closer than half a cell are zero; if the point is exactly halfway between two planes both receive the whole data, so that the overlap counts twice (witness). On a grid of unequal cells it can happen that no plane receives data although the point is inside the grid, and the overlap is zero without an error (witness).", "quantifier": "all files with a single point along some axis, all uniform grids; witnesses for ties and for unequal cells", "why_tests_cant": "ties and unequal cells are points of measure zero that tests rarely hit, and the result looks plausible", "anchors": ["spins/invdes/problem_graph/creator_em.py:ImportOverlap.__call__"]}
{"id": "C149", "title": "Imported overlap: the positions of the components", "statement": "The file is read at the cell centre plus the shift times the cell width. This is the position which Grid.shifted_xyz reports for the component exactly if the component is not shifted along the axis or the next cell has the same width (the cell after the last being a copy of the first in a periodic grid and of the last otherwise); elsewhere the two positions differ (witness).", "quantifier": "all grids, shifts, axes, cells, periodic or not; witness on a grid of unequal cells", "why_tests_cant": "an equivalence over all grids", "anchors": ["spins/invdes/problem_graph/creator_em.py:ImportOverlap.__call__", "spins/gridlock/grid.py:Grid.shifted_xyz"]}
{"id": "C150", "title": "Waveguide modes: orthogonality", "statement": "The fields that v2e and v2h make from two eigenvectors of the waveguide operator with different squares of the propagation constant are orthogonal: the sum over the cross-section of the axial component of E1 x H2, each product taken where the two components sit and times the area of its cell, is zero, for every material, lossy or not, and every spacing of the cells. Without losses, and if the square of one constant differs from the conjugate square of the other, E1 x conj(H2) sums to zero as well, so that the power of any superposition of the two modes is the sum of the powers of the parts.", "quantifier": "all grids, materials, frequencies, pairs of eigenvectors and complex amplitudes", "why_tests_cant": "an identity over all materials and eigenvectors; modes computed in tests are approximate and the sums only nearly zero", "anchors": ["spins/fdfd_tools/waveguide.py:v2e", "spins/fdfd_tools/waveguide.py:v2h", "spins/fdfd_tools/waveguide.py:operator"]}
{"id": "C151", "title": "Waveguide modes: the error measures", "statement": "For a nonzero frequency and wavenumber h_err returns zero exactly for the nonzero fields h whose transverse part is an eigenvector of the waveguide operator with eigenvalue wavenumber**2 and whose axial part is the one v2h gives; e_err returns zero exactly for the nonzero fields that v2e makes from such an eigenvector. For these e2h and h2e take each field to the other. Both measures are nonnegative numbers unless the field is zero (0/0), and do not depend on scale and phase of the field. All this with and without a permeability.", "quantifier": "all grids without zero cells or materials, all frequencies and wavenumbers other than zero, all fields", "why_tests_cant": "an equivalence: tests show that some modes have small error, not that every field of zero error is a mode", "anchors": ["spins/fdfd_tools/waveguide.py:h_err", "spins/fdfd_tools/waveguide.py:e_err", "spins/fdfd_tools/waveguide.py:e2h", "spins/fdfd_tools/waveguide.py:h2e"]}
{"id": "C152", "title": "Directions of sources and monitors", "statement": "axisvec2axis returns the axis a of a vector of three numbers exactly if entry a is not zero and the others are at most a millionth of the length of the vector; for the zero vector and for vectors with two entries above a millionth of the length it raises ValueError, and it raises nothing else. axisvec2polarity then returns the sign of that entry, never 0, and the vector differs from the signed axis times its length by at most a millionth of the length in each entry. Positive factors change neither result; negative ones only turn the polarity.", "quantifier": "all vectors of three real numbers", "why_tests_cant": "a threshold relative to the length, for all real vectors; tests try unit vectors", "anchors": ["spins/gridlock/direction.py:axisvec2axis", "spins/gridlock/direction.py:axisvec2polarity"]}
{"id": "C153", "title": "Field monitors of plans", "statement": "A FieldMonitor with a center and an axis-aligned normal returns the three components of the monitored field restricted to the one layer of cells along the normal that holds the center (the last layer at the upper edge), with all cells of the other two axes. With only a center or only a normal it returns the whole field without complaint. A normal that is not aligned raises ValueError. A center outside of the grid raises GridError, also if it is outside only along the layer, where it does not matter. Fields of the wrong size raise ValueError.", "quantifier": "all grids with increasing edges, centers, normals and fields", "why_tests_cant": "all grids and positions, including those on edges", "anchors": ["spins/invdes/problem_graph/creator_monitor.py:FieldMonitor", "spins/gridlock/grid.py:pos2ind"]}
{"id": "C154", "title": "Dipole sources of plans", "statement": "A DipoleSource is a current that is zero but in one cell, the one that holds its position, and one component, its axis. There the current times the permittivity has the phase that was asked for (0 by default) and a modulus s with s**2 * 0.0266... * omega**2 * dx**3 = power, where dx is the size of the cell along the axis. Axes -3 to -1 count from the last one, others raise IndexError; a position outside of the grid raises GridError.", "quantifier": "all grids, permittivities other than zero, positions, powers >= 0 and phases", "why_tests_cant": "all positions, phases and permittivities", "anchors": ["spins/fdfd_solvers/dipole.py:build_dipole_source", "spins/invdes/problem_graph/creator_em.py:DipoleSource"]}
{"id": "C155", "title": "Bloch vector and borders of plane waves in plans", "statement": "The Bloch vector of an FdfdSimulation with a PlaneWaveSource: if overwrite_bloch_vector is set it is omega * sqrt(eps) times the direction of the wave along the axes without absorbing layers and zero along the axes with layers at either end, whatever bloch_vector the plan gives; if not, it is the bloch_vector of the plan, or zero, whatever the angle of the wave. The current of the source is the same in all cases. The borders are rounded down to whole cells and always belong to x and y: for a wave along x or y the border of that axis has no effect and the wave is not tapered along z.", "quantifier": "all plans with a plane wave source whose construction succeeds", "why_tests_cant": "precedence between three places where the vector can come from, for all angles and layers", "anchors": ["spins/invdes/problem_graph/creator_em.py:PlaneWaveSource", "spins/invdes/problem_graph/creator_em.py:create_fdfd_simulation"]}
{"id": "C156", "title": "Far field of a plane", "statement": "make_near2farfield_matrix for a plane whose width is zero along one axis: applied to a vectorized electric field it gives, for each far field point p, no radial component, and along the polar angle and the azimuth about z the components of - i omega exp(-i omega) / (4 pi) times the sum over the cells of the plane of exp(i omega p.r / |p|) dA (mu_0 n x H + p x (n x E)), with H from the curl of E, both fields interpolated to the place of the normal component of H, n the axis times the polarity, r the cell coordinates and dA the product of the cell sizes of H along the other axes; for points on the unit sphere this is the far field of the equivalent currents. The cells are those from the one nearest to the lower edge up to, not including, the one nearest to the upper edge. eps_0 has no effect. A single far field point, or a plane of a single cell, raises IndexError.", "quantifier": "all grids (also with complex cell sizes), coordinates, fields, points other than the origin, planes and frequencies", "why_tests_cant": "a sum over all cells for arbitrary fields; tests can compare single directions of single fields", "anchors": ["spins/invdes/problem/farfield.py:make_near2farfield_matrix", "spins/invdes/problem/farfield.py:fields_on_slice", "spins/invdes/problem/farfield.py:move2H_matrix", "spins/invdes/problem/farfield.py:make_fourier_matrix"]}
{"id": "C157", "title": "Far field of a box", "statement": "make_near2farfield_box_matrix projects the closed surface of a block of cells: the cells from the one nearest to the lower to (not including) the one nearest to the upper edge of the box along each axis. A side between two neighbouring cells contributes exactly if one of them belongs to the block and the other does not, with the normal pointing out of the block. The argument mu_0 has no effect: the permeability is always 1.", "quantifier": "all grids, boxes that span at least one cell along each axis and two along two of them, fields and points", "why_tests_cant": "that the six windows close up exactly depends on rounding to cells in all positions of the box", "anchors": ["spins/invdes/problem/farfield.py:make_near2farfield_box_matrix"]}
{"id": "C158", "title": "Shift with mirrors", "statement": "shift_with_mirror(axis, shape, s) for - n <= s < n, n the number of cells along the axis: applied to the values on the cells of a function that is symmetric about both ends of the axis it gives the values s cells further; every vector consists of the values of such a function, so that this determines the matrix. Shifts s >= n raise an exception, and shifts s < - n, which the function does not check, are refused with ValueError when the matrix is built. Other numbers of axes than two or three and axes outside the shape raise.", "quantifier": "all shapes with two or three sizes none of which is zero, axes, shifts of any size and sign, and vectors", "why_tests_cant": "the index formula has to be right for every size, axis and shift; a test sees single shifts of single arrays", "anchors": ["spins/fdfd_tools/operators.py:shift_with_mirror"]}
{"id": "C159", "title": "Cyclic shifts with a phase in the waveguide solver", "statement": "rotation_bloch(axis, shape, phase, 1) applied to the values of a function that takes the factor exp(-i phase) over the length of the axis gives the values in the next cell; with -1 it gives those in the previous cell of a function that takes the factor exp(-i conj(phase)). The two shifts are inverse to each other exactly if the phase is real. Other shifts raise. deriv_forward and deriv_back, from which the waveguide operators are built, are the matrices of deriv_forward_shift and deriv_back_shift, with the conjugate of the phase backward.", "quantifier": "all shapes with two or three sizes none of which is zero, axes, complex phases, cell sizes and Bloch vectors", "why_tests_cant": "equality of two independent constructions of the matrices on all shapes; that complex phases break the inverse is not visible with the real phases of tests", "anchors": ["spins/fdfd_tools/operators.py:rotation_bloch", "spins/fdfd_tools/operators.py:deriv_forward", "spins/fdfd_tools/operators.py:deriv_back"]}
{"id": "C160", "title": "Material from measured data", "statement": "CustomMaterial(wlens, n, k): for strictly increasing wavelengths and columns of the same length, refractive_index at a wavelength between two neighbouring ones of the data gives an n between the two values of n there and a k between the two values of k there (no overshoot), and the data themselves at the wavelengths of the data. Wavelengths that are not strictly increasing, for instance sorted the other way, different lengths, or fewer than two rows raise ValueError.", "quantifier": "all data of any length, and all wavelengths from the first to the last", "why_tests_cant": "bounds for all data and all wavelengths of a piecewise cubic interpolation; tests compare single numbers", "anchors": ["spins/material/material.py:interpolate_using_wavelengths", "spins/material/material.py:CustomMaterial"]}
{"id": "C161", "title": "Tables of the named materials", "statement": "Si, SiO2 and Si3N4: at every wavelength in the range of their tables refractive_index succeeds with n > 0 and k >= 0, so that the imaginary part of eps is not positive (no gain), and n and k are within the stated bounds. For SiO2 this holds with n <= 2.839 up to 12.349 micrometers only: from 12.5 micrometers on the column of n contains the wavelengths in micrometers (within 0.1 percent) instead of indices, so that n >= 12.5 there and n >= 100 from 100 micrometers on.", "quantifier": "all wavelengths from the shortest to the longest of each table", "why_tests_cant": "an interval of wavelengths, not a finite set; errors in the data show only at wavelengths nobody tested", "anchors": ["spins/material/material.py:SiO2", "spins/material/material.py:Si", "spins/material/material.py:Si3N4", "spins/material/material.py:interpolate_using_energy", "spins/material/material.py:Material"]}
{"id": "C162", "title": "Generic solver and conductors", "statement": "fdfd_tools.solvers.generic: with a matrix_solver that finds a solution of every system that has one, the returned E satisfies e_full E = -i omega J (with adjoint=True the conjugate transpose of e_full instead) whenever that system has a solution, for all mu, pec and pmc. With a current that is not zero at a place marked in pec the system has no solution, so that whatever the matrix_solver returns does not solve it (the right hand side is not masked). The values of E at places marked in pec are not determined: replacing them by any others gives another solution.", "quantifier": "all grids with cells of nonzero size, materials, conductors, currents, frequencies and matrix solvers", "why_tests_cant": "all grids and materials, all solvers and solutions; tests solve a few systems numerically", "anchors": ["spins/fdfd_tools/solvers.py:generic", "spins/fdfd_tools/operators.py:e_full", "spins/fdfd_tools/operators.py:e_full_preconditioners"]}
{"id": "C163", "title": "Progress reports of the generic solver", "statement": "The default matrix solver of generic (scipy's qmr): without a callback in matrix_solver_opts it returns what qmr returns, converged or not, and reports exactly the iterations that are multiples of 100, in order. With a callback in matrix_solver_opts the first iteration ends in RecursionError, whatever the recursion limit, and the callback is never called, because the wrapper looks up the callback in the dictionary in which it has put itself.", "quantifier": "all sequences of iterates and all recursion limits", "why_tests_cant": "all lengths of the iteration and all limits; the failure concerns every run with this option", "anchors": ["spins/fdfd_tools/solvers.py:_scipy_qmr"]}
{"id": "C164", "title": "Material of a layer stack", "statement": "An epsilon specification of type gds: at every point within the grid that is not on the top or bottom of an element, the drawn permittivity is decided by the last element of mat_stack.stack whose extents contain the height of the point: its foreground if the point is in one of the polygons of its gds_layer (in nanometers, coordinates rounded to the nearest whole number, halves to even), else its background, also where earlier elements had polygons. At heights in no element the background of the stack stays. A rendered cell that no top or bottom cuts and all whose points show the same permittivity gets that permittivity. Layers that are not in the file have no polygons. Extents that do not increase (also those given from top to bottom) and polygons of fewer than three points raise GridError; an unknown material raises its own error.", "quantifier": "all grids, extrusion axes, stacks, layouts and points", "why_tests_cant": "all stacks of any length and all points; tests look at a few cells of one stack", "anchors": ["spins/invdes/problem_graph/simspace.py:_draw_gds_on_grid", "spins/invdes/problem_graph/simspace.py:_create_grid", "spins/gridlock/grid.py:Grid.draw_slab", "spins/gridlock/grid.py:Grid.draw_polygon"]}
{"id": "C165", "title": "Material of a list of meshes", "statement": "An epsilon specification of type gds_mesh: at every point within the grid that is not on the top or bottom of a mesh, the drawn permittivity is the one of the last mesh of mesh_list that contains the point (a slab at its heights, a gds mesh also within one of its polygons), else the background. A rendered cell that no top or bottom cuts and all whose points show the same permittivity gets that permittivity. The first mesh that cannot be drawn raises GridError, one of unknown type ValueError.", "quantifier": "all grids, extrusion axes, lists of meshes, layouts and points", "why_tests_cant": "all lists and all points; tests look at a few cells of one list", "anchors": ["spins/invdes/problem_graph/simspace.py:_draw_mesh_on_grid", "spins/invdes/problem_graph/simspace.py:_create_grid"]}
{"id": "C166", "title": "Values and gradient of the Hermite parametrization", "statement": "HermiteParam: get_structure has one value for each fine point, strictly between 0 and 1, for positive k on the same side of 1/2 as the interpolated value. calculate_gradient holds the partial derivatives of get_structure with respect to the entries of the vector. With k = 0 all values are 1/2 (and not the interpolated values, as with CubicParam).", "quantifier": "all vectors, matrices and k", "why_tests_cant": "a derivative at all vectors; tests compare difference quotients at a few", "anchors": ["spins/invdes/parametrization/parametrization.py:HermiteParam.get_structure", "spins/invdes/parametrization/parametrization.py:HermiteParam.calculate_gradient", "spins/invdes/parametrization/parametrization.py:HermiteParam.set_k"]}
{"id": "C167", "title": "Vectors of the Hermite parametrization", "statement": "HermiteParam: the constructor takes a number, the vector, values and derivatives at the coarse points, or values alone, and the first of these whose length fits is meant; decode takes the first three; everything else raises ValueError. from_vector leads to a vector within the bounds and keeps vectors within them; serialize and deserialize then restore vector and k. The constructor does not apply the bounds, so that a vector outside of them changes by saving and loading. get_bounds is not defined, so that optimizers are told there are no bounds and from_vector stores another vector than the one given.", "quantifier": "all shapes, vectors and bounds", "why_tests_cant": "all lengths and vectors", "anchors": ["spins/invdes/parametrization/parametrization.py:HermiteParam", "spins/invdes/parametrization/parametrization.py:Parametrization.from_vector", "spins/invdes/parametrization/parametrization.py:Parametrization.get_bounds"]}
