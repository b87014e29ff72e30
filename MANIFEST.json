{
 "claims": [
  {
   "property": "C01",
   "status": "proved",
   "theorems": [
    "schedule_topological"
   ],
   "note": "all DAGs, groupings and set orders"
  },
  {
   "property": "C02",
   "status": "proved",
   "theorems": [
    "eval_fun_denotation",
    "eval_fun_never_wrong",
    "denotation_unique"
   ],
   "note": "value = recursive denotation; needs no direct dependency between expensive nodes for success"
  },
  {
   "property": "C03",
   "status": "proved",
   "theorems": [
    "dependent_heavy_nodes_refuted",
    "heavy_override_ignored_refuted",
    "eval_fun_denotation"
   ],
   "note": "positive half is eval_fun_denotation; the failure is proved for all node functions and set orders"
  },
  {
   "property": "C04",
   "status": "proved",
   "theorems": [
    "eval_grad_chain_rule",
    "heavy_none_gradient_refuted"
   ],
   "note": "gradients are the transpose of the forward-mode derivative for any pairing; None entries of expensive nodes fail"
  },
  {
   "property": "C05",
   "status": "proved",
   "theorems": [
    "inplace_accumulation_fresh",
    "sum_aliasing_refuted"
   ],
   "note": "refinement for fresh arrays, wrong gradients for Sum"
  },
  {
   "property": "C06",
   "status": "proved",
   "theorems": [
    "variables_change_only_in_actions",
    "plan_locked_between_runs",
    "frozen_variable_constant"
   ],
   "note": "all histories of calls; actions are arbitrary programs over the API"
  },
  {
   "property": "C07",
   "status": "proved",
   "theorems": [
    "thawed_vars_last_mark",
    "core_ok_kept"
   ],
   "note": "all call sequences whose set_var_value calls address registered variables"
  },
  {
   "property": "C08",
   "status": "proved",
   "theorems": [
    "checkpoint_round_trip",
    "checkpoint_after_completion_refuted"
   ],
   "note": "all states; saving after completion raises IndexError"
  },
  {
   "property": "C09",
   "status": "proved",
   "theorems": [
    "resume_runs_action_twice",
    "resume_correct_if_idempotent",
    "resume_differs_refuted",
    "built_plans_tight"
   ],
   "note": "for runs that register no new variables before the checkpoint; actions carry no private state in the model"
  },
  {
   "property": "C10",
   "status": "proved",
   "theorems": [
    "step_files_distinct",
    "event_file_content",
    "resumed_process_overwrites_refuted"
   ],
   "note": "all histories in one process; a second process overwrites"
  },
  {
   "property": "C11",
   "status": "proved",
   "theorems": [
    "run_exception_leaves_plan_writable",
    "resume_after_completion_refuted"
   ],
   "note": "both outcomes of run, for every plan"
  },
  {
   "property": "C12",
   "status": "proved",
   "theorems": [
    "add_node_conservative",
    "add_node_registers_inputs",
    "name_clash_drops_inputs_refuted"
   ],
   "note": "unique names needed for the closure part"
  },
  {
   "property": "C55",
   "status": "proved",
   "theorems": [
    "resume_ignores_auto_checkpoint_refuted"
   ],
   "note": "for every plan and checkpoint"
  },
  {
   "property": "C13",
   "status": "proved",
   "theorems": [
    "generated_names_distinct",
    "user_names_without_dot_free",
    "names_repeat_after_restart_refuted"
   ],
   "note": "all histories of requests in a process; counters restart in a new process"
  },
  {
   "property": "C14",
   "status": "proved",
   "theorems": [
    "goos_version_accepted_iff",
    "goos_version_sound",
    "goos_version_complete",
    "goos_version_not_monotone_refuted",
    "invdes_version_accepted_iff",
    "invdes_version_message_refuted"
   ],
   "note": "on parsed version parts; both packages"
  },
  {
   "property": "C15",
   "status": "proved",
   "theorems": [
    "dumps_succeeds_iff",
    "dumps_fails_with_ValueError",
    "dumps_lists_every_node_once",
    "loads_dumps_round_trip",
    "loads_succeeds_iff",
    "loads_errors"
   ],
   "note": "all finite object trees; JSON text and field validation not modelled"
  },
  {
   "property": "C16",
   "status": "proved",
   "theorems": [
    "same_object_ever_after",
    "one_object_per_name",
    "object_belongs_to_node",
    "requests_succeed",
    "name_clash_gets_first_object",
    "name_clash_before_creation",
    "name_clash_silent_refuted"
   ],
   "note": "all request histories; creators request all nodes they refer to"
  },
  {
   "property": "C17",
   "status": "proved",
   "theorems": [
    "resume_at_boundary",
    "resume_anywhere"
   ],
   "note": "all plans; crashes between file writes; a transformation changes only its own parametrization"
  },
  {
   "property": "C18",
   "status": "proved",
   "theorems": [
    "resumed_logs_consecutive",
    "resumed_logs_never_overwrite",
    "latest_log_is_last_written"
   ],
   "note": "all folder histories of resuming and non-resuming processes"
  },
  {
   "property": "C56",
   "status": "proved",
   "theorems": [
    "resume_midway_loses_parameters_refuted"
   ],
   "note": "witness plan and crash point"
  },
  {
   "property": "C57",
   "status": "proved",
   "theorems": [
    "resume_unlisted_parameter_refuted",
    "resume_duplicate_names_refuted",
    "rerun_in_used_folder_refuted"
   ],
   "note": "one witness per failure"
  },
  {
   "property": "C19",
   "status": "proved",
   "theorems": [
    "cache_transparent",
    "cache_keeps_size",
    "cache_is_lru",
    "solver_runs_only_on_misses",
    "cache_size_zero_refuted"
   ],
   "note": "solver deterministic; comparison of structures is equality; cache size 0 raises IndexError"
  },
  {
   "property": "C20",
   "status": "proved",
   "theorems": [
    "careful_callers_get_current_fields",
    "structure_updated_in_place_refuted",
    "fields_updated_in_place_refuted"
   ],
   "note": "arrays in a heap compared by current contents"
  },
  {
   "property": "C21",
   "status": "proved",
   "theorems": [
    "concurrent_calls_linearize",
    "concurrent_results",
    "one_solve_at_a_time",
    "no_deadlock"
   ],
   "note": "one step per statement of simulate; any number of threads, any schedule"
  },
  {
   "property": "C25",
   "status": "proved",
   "theorems": [
    "raster_1D_exact",
    "raster_1D_errors"
   ],
   "note": "exact rationals; grid increasing"
  },
  {
   "property": "C26",
   "status": "proved",
   "theorems": [
    "rendering_entry",
    "rendering_indices",
    "rendering_rows",
    "rendering_values",
    "rendering_constant",
    "rendering_within_bounds"
   ],
   "note": "exact rationals; grid increasing, shape edges nondecreasing"
  },
  {
   "property": "C27",
   "status": "proved",
   "theorems": [
    "render_grad_real",
    "render_grad_complex",
    "render_grad_complex_refuted"
   ],
   "note": "all grids and shapes; exact rationals, default Yee shifts"
  },
  {
   "property": "C28",
   "status": "proved",
   "theorems": [
    "edge_coords_centred",
    "edge_coords_cover",
    "edge_coords_symmetric",
    "edge_coords_symmetric_degenerate",
    "edge_coords_invdes_uniform",
    "edge_coords_invdes_centred_refuted"
   ],
   "note": "exact rationals, one axis"
  },
  {
   "property": "C29",
   "status": "proved",
   "theorems": [
    "region_slice_covers",
    "region_slice_outside",
    "region_slice_centre_refuted"
   ],
   "note": "exact rationals, one axis"
  },
  {
   "property": "C58",
   "status": "proved",
   "theorems": [
    "pixel_count_is_ceiling",
    "pixel_edges",
    "pixel_sizes"
   ],
   "note": "exact rationals, one axis"
  },
  {
   "property": "C59",
   "status": "proved",
   "theorems": [
    "shifted_sizes_match_edges",
    "shifted_sizes_refuted",
    "render_edges_valid"
   ],
   "note": "exact rationals, one axis"
  },
  {
   "property": "C60",
   "status": "proved",
   "theorems": [
    "rendered_value",
    "rendered_uniform"
   ],
   "note": "exact rationals, default Yee shifts"
  },
  {
   "property": "C22",
   "status": "proved",
   "theorems": [
    "direct_constructed",
    "grating_constructed",
    "composite_constructed",
    "decode_encode",
    "decode_total",
    "from_to_vector",
    "composite_split",
    "composite_structure",
    "composite_jacobian",
    "composite_bounds",
    "bounds_respected",
    "deserialize_serialize",
    "serialize_total"
   ],
   "note": "exact rationals; array sharing not modelled"
  },
  {
   "property": "C23",
   "status": "proved",
   "theorems": [
    "slack_equivalent",
    "slack_constraint_gradient",
    "slack_bounds",
    "slack_bounds_composite_fail",
    "slack_negative_refuted"
   ],
   "note": "arbitrary objective and constraint functions"
  },
  {
   "property": "C24",
   "status": "proved",
   "theorems": [
    "grating_area_fraction",
    "grating_range_total",
    "grating_complement",
    "grating_no_pixels"
   ],
   "note": "exact rationals"
  },
  {
   "property": "C39",
   "status": "proved",
   "theorems": [
    "direct_projection",
    "projection_total",
    "projection_idempotent"
   ],
   "note": "exact rationals; bounds may be infinite"
  },
  {
   "property": "C61",
   "status": "proved",
   "theorems": [
    "grating_derivative",
    "grating_derivative_left_refuted"
   ],
   "note": "exact rationals"
  },
  {
   "property": "C30",
   "status": "proved",
   "theorems": [
    "vec_position",
    "vec_size",
    "unvec_vec",
    "vec_unvec",
    "unvec_succeeds_iff"
   ],
   "note": "three-component fields"
  },
  {
   "property": "C31",
   "status": "proved",
   "theorems": [
    "curl_e_functional",
    "curl_h_functional"
   ],
   "note": "over any field with conjugation"
  },
  {
   "property": "C32",
   "status": "proved",
   "theorems": [
    "div_curl_e",
    "div_curl_h",
    "curl_grad_e",
    "curl_grad_h"
   ],
   "note": "also with Bloch factors, and curl grad = 0"
  },
  {
   "property": "C33",
   "status": "proved",
   "theorems": [
    "preconditioned_symmetric",
    "preconditioned_transpose"
   ],
   "note": "square roots of the weights are assumed to exist, as in numpy over C"
  },
  {
   "property": "C34",
   "status": "proved",
   "theorems": [
    "e_full_functional",
    "e_full_functional_inverse_mu",
    "e_full_functional_mu_refuted",
    "e2h_functional"
   ],
   "note": ""
  },
  {
   "property": "C35",
   "status": "proved",
   "theorems": [
    "local_solver_forward",
    "local_solver_adjoint",
    "local_solver_unsupported"
   ],
   "note": "the inner solver is any function that solves the preconditioned system"
  },
  {
   "property": "C36",
   "status": "proved",
   "theorems": [
    "adjoint_simulation_real",
    "adjoint_simulation_pml",
    "adjoint_simulation_refuted"
   ],
   "note": ""
  },
  {
   "property": "C62",
   "status": "proved",
   "theorems": [
    "rotation_acts_on_lattice",
    "rotation_rejects_parallel_shift",
    "bloch_forward_derivative",
    "bloch_backward_derivative"
   ],
   "note": ""
  },
  {
   "property": "C63",
   "status": "proved",
   "theorems": [
    "preconditioned_hermitian"
   ],
   "note": ""
  },
  {
   "property": "C64",
   "status": "proved",
   "theorems": [
    "first_order_gives_e_full",
    "first_order_gives_h_full",
    "e2h_completes_e",
    "h2e_recovers_e",
    "eh_full_functional",
    "eh_full_needs_mu"
   ],
   "note": ""
  },
  {
   "property": "C65",
   "status": "proved",
   "theorems": [
    "poynting_value",
    "poynting_forms_agree",
    "poynting_theorem",
    "power_balance",
    "poynting_theorem_refuted"
   ],
   "note": ""
  },
  {
   "property": "C66",
   "status": "proved",
   "theorems": [
    "set_variable_action",
    "parameters_stay_frozen"
   ],
   "note": "node-valued assignments"
  },
  {
   "property": "C37",
   "status": "proved",
   "theorems": [
    "scpml_cell_widths",
    "scpml_absorption_sign",
    "scpml_absorption_front",
    "scpml_absorption_back",
    "scpml_defined",
    "scpml_error",
    "scpml_integer_layers",
    "scpml_leaves_input_alone",
    "stretch_leaves_input_refuted",
    "scpml_overlap_refuted"
   ],
   "note": "default absorption profile, epsilon_effective 1"
  },
  {
   "property": "C67",
   "status": "proved",
   "theorems": [
    "uniform_grid_cells",
    "uniform_equals_stretched_refuted"
   ],
   "note": "default absorption profile"
  },
  {
   "property": "C68",
   "status": "proved",
   "theorems": [
    "periodic_dx"
   ],
   "note": ""
  },
  {
   "property": "C69",
   "status": "proved",
   "theorems": [
    "nonuniform_grid",
    "nonuniform_first_point_refuted",
    "nonuniform_gradual_refuted"
   ],
   "note": "per axis"
  },
  {
   "property": "C40",
   "status": "proved",
   "theorems": [
    "optimize_stops",
    "optimize_limit",
    "optimize_split",
    "optimize_zero_refuted"
   ],
   "note": ""
  },
  {
   "property": "C41",
   "status": "proved",
   "theorems": [
    "adaptive_step",
    "adaptive_run",
    "adaptive_terminates_refuted"
   ],
   "note": ""
  },
  {
   "property": "C42",
   "status": "proved",
   "theorems": [
    "penalty_schedule",
    "penalty_second_call",
    "penalty_monotone",
    "penalty_small_weight_refuted"
   ],
   "note": "mu ** tau is a function argument"
  },
  {
   "property": "C43",
   "status": "proved",
   "theorems": [
    "constraint_types",
    "constraints_accepted",
    "constraints_faithful",
    "constraints_weaker",
    "constraints_last_only_refuted"
   ],
   "note": "values of constraints; the Jacobian closures are built the same way"
  },
  {
   "property": "C44",
   "status": "proved",
   "theorems": [
    "unpack_after_pack",
    "pack_after_unpack",
    "unpack_spec",
    "bounds_line_up",
    "bounds_line_up_refuted"
   ],
   "note": ""
  },
  {
   "property": "C70",
   "status": "proved",
   "theorems": [
    "adam_step",
    "adagrad_step",
    "rmsprop_step",
    "nag_step",
    "adam_iterate_alone_refuted"
   ],
   "note": "square root is a function argument"
  },
  {
   "property": "C71",
   "status": "proved",
   "theorems": [
    "auglag_call_spec",
    "auglag_update",
    "auglag_optimal"
   ],
   "note": "powers of mu are function arguments"
  },
  {
   "property": "C72",
   "status": "proved",
   "theorems": [
    "resumed_limit",
    "resumed_total_refuted"
   ],
   "note": ""
  },
  {
   "property": "C45",
   "status": "proved",
   "theorems": [
    "grating_constraints_meaning",
    "grating_constraint_errors",
    "grating_constraint_jacobian",
    "composite_constraints_meaning",
    "composite_constraint_jacobian",
    "edge_constraint_meaning",
    "edge_constraint_jacobian",
    "edge_constraint_gradient_refuted"
   ],
   "note": ""
  },
  {
   "property": "C46",
   "status": "proved",
   "theorems": [
    "dp_returns_best",
    "dp_subpixel_refuted",
    "dp_flat_refuted",
    "dp_zero_feature_refuted"
   ],
   "note": "squared error, the only error function used"
  },
  {
   "property": "C73",
   "status": "proved",
   "theorems": [
    "discretization_is_best",
    "discretization_rejects_small_features",
    "widths_restore_edges",
    "widths_obey_features",
    "stored_bounds_first_refuted",
    "stored_bounds_level_refuted"
   ],
   "note": "without the separate discretization features"
  },
  {
   "property": "C74",
   "status": "proved",
   "theorems": [
    "pixelated_is_filled_area",
    "pixelated_in_unit_interval",
    "pixelated_thin_layer_refuted",
    "widths_gradient_adjoint"
   ],
   "note": ""
  },
  {
   "property": "C75",
   "status": "proved",
   "theorems": [
    "barcode_bars_tile"
   ],
   "note": "one axis"
  },
  {
   "property": "C38",
   "status": "proved",
   "theorems": [
    "direct_lattice_average",
    "direct_lattice_partition",
    "direct_lattice_bounds",
    "old_lattice_average",
    "old_lattice_partition",
    "reduced_lattice_average",
    "reduced_lattice_partition",
    "selection_permittivity",
    "reduced_permittivity"
   ],
   "note": "rational permittivities; default wrap_or_clip"
  },
  {
   "property": "C76",
   "status": "proved",
   "theorems": [
    "selection_design_bounds",
    "selection_empty_design",
    "selection_all_ones",
    "selection_reaches_foreground",
    "reduced_reaches_foreground",
    "selection_foreground_refuted",
    "selection_one_component_refuted"
   ],
   "note": "rational permittivities"
  },
  {
   "property": "C77",
   "status": "proved",
   "theorems": [
    "far_edge_values",
    "far_edge_row_sums",
    "far_edge_partition_refuted"
   ],
   "note": ""
  },
  {
   "property": "C78",
   "status": "proved",
   "theorems": [
    "resume_from_event_file",
    "resume_continues_action",
    "resume_without_support_refuted",
    "resume_empty_event_refuted"
   ],
   "note": "actions without private Python state"
  },
  {
   "property": "C47",
   "status": "proved",
   "theorems": [
    "fit_gradient_is_half",
    "fit_gradient_refuted"
   ],
   "note": "real structure and derivative, complex permittivities and selection matrix"
  },
  {
   "property": "C48",
   "status": "proved",
   "theorems": [
    "log_sum_exp_bounds",
    "log_sum_exp_weights",
    "softmax_average_bounds"
   ],
   "note": ""
  },
  {
   "property": "C49",
   "status": "proved",
   "theorems": [
    "operators_mean_arithmetic",
    "operators_gradient",
    "weighted_sum_value",
    "array_product_adds",
    "array_product_refuted"
   ],
   "note": "scalar-valued objectives over the reals"
  },
  {
   "property": "C79",
   "status": "proved",
   "theorems": [
    "objective_function_value",
    "gradient_is_derivative",
    "class_partials",
    "two_variables_rejected",
    "gradient_of_power_zero_refuted"
   ],
   "note": "scalar-valued objectives over the reals"
  },
  {
   "property": "C80",
   "status": "proved",
   "theorems": [
    "constraints_split"
   ],
   "note": ""
  },
  {
   "property": "C50",
   "status": "proved",
   "theorems": [
    "top_cell_automatic",
    "top_cell_automatic_found",
    "top_cell_automatic_errors",
    "top_cell_by_name",
    "top_cell_order_refuted",
    "top_cell_empty_refuted"
   ],
   "note": ""
  },
  {
   "property": "C51",
   "status": "proved",
   "theorems": [
    "group_order",
    "group_gradient"
   ],
   "note": ""
  },
  {
   "property": "C52",
   "status": "proved",
   "theorems": [
    "slice_index",
    "slice_center",
    "slice_not_given",
    "slice_zero_refuted",
    "slice_minus_one_refuted"
   ],
   "note": ""
  },
  {
   "property": "C54",
   "status": "proved",
   "theorems": [
    "log_files_any_order",
    "transformations_listed",
    "joined_monitors",
    "joined_iterations",
    "joined_empty_log",
    "joined_unnumbered_refuted",
    "joined_lengths_refuted"
   ],
   "note": ""
  },
  {
   "property": "C81",
   "status": "proved",
   "theorems": [
    "single_value",
    "single_value_empty_log",
    "single_value_iteration_refuted",
    "single_value_unnumbered_refuted"
   ],
   "note": ""
  },
  {
   "property": "C82",
   "status": "proved",
   "theorems": [
    "layer_polygons",
    "layer_polygons_mixed_refuted",
    "bounding_box_tight",
    "bounding_boxes_one_each",
    "box_geometry"
   ],
   "note": "parsing of the file is external"
  },
  {
   "property": "C83",
   "status": "proved",
   "theorems": [
    "raster_2D_average",
    "raster_2D_covered",
    "raster_2D_orientation",
    "raster_2D_start",
    "raster_2D_errors",
    "raster_2D_vertical_refuted",
    "raster_2D_bow_tie_refuted"
   ],
   "note": "rational vertices and edges; areas as Riemann integrals"
  },
  {
   "property": "C53",
   "status": "proved",
   "theorems": [
    "render_exact",
    "render_bounds",
    "render_uniform",
    "render_overlay",
    "render_disjoint",
    "disable_intersection_refuted",
    "render_num_grids_refuted",
    "draw_polygon_block",
    "draw_cuboid_block",
    "draw_errors"
   ],
   "note": "exact rationals; the external polygon subtraction is a parameter with its specification as hypothesis, met for rectangles by rect_not"
  },
  {
   "property": "C84",
   "status": "proved",
   "theorems": [
    "goos_gradient_correct",
    "goos_partial_derivatives",
    "goos_gradient_shared_refuted",
    "goos_gradient_broadcast_refuted",
    "goos_gradient_constant_refuted",
    "goos_gradient_complex_refuted"
   ],
   "note": "exact complex numbers; arrays as lists of entries"
  },
  {
   "property": "C85",
   "status": "proved",
   "theorems": [
    "goos_add",
    "goos_mul",
    "goos_neg",
    "goos_sub",
    "goos_div",
    "goos_pow",
    "goos_add_evaluates",
    "goos_mul_evaluates",
    "goos_flattening_refuted"
   ],
   "note": "exact complex numbers; arrays as lists of entries"
  },
  {
   "property": "C86",
   "status": "proved",
   "theorems": [
    "simulation_history_free",
    "simulation_backprop",
    "overlap_gradient_exact",
    "diff_gradient_exact"
   ],
   "note": "the inner linear solver is a parameter assumed to solve regular systems"
  },
  {
   "property": "C87",
   "status": "proved",
   "theorems": [
    "power_gradient_is_half",
    "power_gradient_refuted"
   ],
   "note": "the inner linear solver is a parameter assumed to solve regular systems"
  },
  {
   "property": "C88",
   "status": "proved",
   "theorems": [
    "goos_simulation_history",
    "goos_simulation_history_refuted",
    "goos_simulation_gradient",
    "goos_simulation_gradient_errors",
    "goos_simulation_symmetry",
    "goos_simulation_real"
   ],
   "note": "mode solver and beams are function arguments; direct solver"
  },
  {
   "property": "C89",
   "status": "proved",
   "theorems": [
    "gen_gds_even_odd",
    "gen_gds_plain",
    "gen_gds_no_vertices",
    "gen_gds_ends_refuted",
    "gen_gds_even_odd_refuted"
   ],
   "note": "point test and boolean NOT of gdspy are parameters assumed exact"
  },
  {
   "property": "C90",
   "status": "proved",
   "theorems": [
    "eigenvector_is_mode"
   ],
   "note": "the eigenvalue solver is not modelled"
  },
  {
   "property": "C91",
   "status": "proved",
   "theorems": [
    "source_emits_one_way"
   ],
   "note": ""
  },
  {
   "property": "C92",
   "status": "proved",
   "theorems": [
    "mode_source_one_way"
   ],
   "note": "the eigenvector is an argument; exact complex numbers"
  },
  {
   "property": "C93",
   "status": "proved",
   "theorems": [
    "wavenumber_correction_worsens",
    "wavenumber_correction_no_decay",
    "tools_correction_helps"
   ],
   "note": ""
  },
  {
   "property": "C94",
   "status": "proved",
   "theorems": [
    "source_ignores_eigenvector_phase",
    "source_power"
   ],
   "note": "the eigenvector is an argument; exact complex numbers"
  },
  {
   "property": "C95",
   "status": "proved",
   "theorems": [
    "power_is_conserved"
   ],
   "note": ""
  },
  {
   "property": "C96",
   "status": "proved",
   "theorems": [
    "normalized_power_one",
    "normalized_power_one_refuted",
    "forward_mode_refused_refuted"
   ],
   "note": "exact complex numbers"
  },
  {
   "property": "C97",
   "status": "proved",
   "theorems": [
    "beam_frame",
    "beam_straight",
    "plane_wave_field",
    "magnetic_field"
   ],
   "note": "exact numbers; mu is None"
  },
  {
   "property": "C98",
   "status": "proved",
   "theorems": [
    "gaussian_source",
    "gaussian_center_z",
    "gaussian_center_refuted"
   ],
   "note": "exact numbers; mu is None"
  },
  {
   "property": "C99",
   "status": "proved",
   "theorems": [
    "gaussian_power",
    "plane_wave_power_ignored",
    "plane_wave_source"
   ],
   "note": "the power of the beam is stated by the derivative with respect to the radius"
  },
  {
   "property": "C100",
   "status": "proved",
   "theorems": [
    "cut_current_one_sided",
    "plane_wave_residual",
    "plane_wave_residual_size",
    "first_plane_empty"
   ],
   "note": "the residual for angles zero"
  },
  {
   "property": "C101",
   "status": "proved",
   "theorems": [
    "plane_wave_second_call",
    "gaussian_calls_drift"
   ],
   "note": ""
  },
  {
   "property": "C102",
   "status": "proved",
   "theorems": [
    "mask_between",
    "mask_one_inside",
    "mask_zero_edge",
    "mask_zero_outside",
    "borders_used",
    "large_border_raises",
    "half_border_ignored"
   ],
   "note": ""
  },
  {
   "property": "C103",
   "status": "proved",
   "theorems": [
    "normalized_source_emits"
   ],
   "note": "the solver is a parameter; real factors"
  },
  {
   "property": "C104",
   "status": "proved",
   "theorems": [
    "goos_slices",
    "goos_slice_last_refuted",
    "goos_max",
    "goos_max_shapes",
    "goos_norm",
    "goos_abs",
    "goos_dot",
    "goos_sigmoid",
    "goos_conj"
   ],
   "note": "exact complex numbers; arrays as lists of entries"
  },
  {
   "property": "C105",
   "status": "proved",
   "theorems": [
    "overlap_is_flux_pairing",
    "built_overlap_is_flux_pairing"
   ],
   "note": "the eigenvector is an argument; exact complex numbers; division by a zero norm (nan in numpy) is an error value"
  },
  {
   "property": "C106",
   "status": "proved",
   "theorems": [
    "overlap_measures_mode",
    "source_reaches_overlap"
   ],
   "note": "the eigenvector is an argument; exact complex numbers"
  },
  {
   "property": "C107",
   "status": "proved",
   "theorems": [
    "overlap_is_local"
   ],
   "note": ""
  },
  {
   "property": "C108",
   "status": "proved",
   "theorems": [
    "overlap_ignores_eigenvector_phase"
   ],
   "note": "the eigenvector is an argument"
  },
  {
   "property": "C109",
   "status": "proved",
   "theorems": [
    "backward_wave_rejected_refuted"
   ],
   "note": "the documented claim is false of the code; the witness is a line of five cells"
  },
  {
   "property": "C110",
   "status": "proved",
   "theorems": [
    "cubic_interpolates",
    "cubic_quadratics",
    "cubic_constants",
    "cubic_outside_refused"
   ],
   "note": "exact real numbers"
  },
  {
   "property": "C111",
   "status": "proved",
   "theorems": [
    "cubic_slopes"
   ],
   "note": "exact real numbers"
  },
  {
   "property": "C112",
   "status": "proved",
   "theorems": [
    "geometry_reaches_exactly",
    "geometry_reads_back",
    "geometry_misfit_refused"
   ],
   "note": ""
  },
  {
   "property": "C113",
   "status": "proved",
   "theorems": [
    "cubic_mirror_x",
    "cubic_mirror_y",
    "cubic_period_x",
    "cubic_period_y",
    "cubic_mirror_refuted"
   ],
   "note": "exact real numbers"
  },
  {
   "property": "C114",
   "status": "proved",
   "theorems": [
    "cubic_values_open",
    "cubic_uniform",
    "cubic_gradient",
    "cubic_project",
    "cubic_overshoot_refuted"
   ],
   "note": "exact real numbers; scalar bounds"
  },
  {
   "property": "C115",
   "status": "proved",
   "theorems": [
    "open_axis_grids",
    "goos_parametrization",
    "plan_parametrization",
    "plan_periods_refuted"
   ],
   "note": "exact real numbers"
  },
  {
   "property": "C116",
   "status": "proved",
   "theorems": [
    "scipy_run_logs",
    "scipy_rerun_logs",
    "scipy_ended",
    "scipy_without_options",
    "scipy_dict_options",
    "scipy_logs_other_point_refuted"
   ],
   "note": "scipy.optimize.minimize is an arbitrary strategy; items() of a schema model is taken to be a list"
  },
  {
   "property": "C117",
   "status": "proved",
   "theorems": [
    "scipy_resumes",
    "plan_of_optimizations_resumes",
    "scipy_resume_memory_refuted"
   ],
   "note": "scipy.optimize.minimize is an arbitrary strategy"
  },
  {
   "property": "C118",
   "status": "proved",
   "theorems": [
    "scipy_limit_across_restarts"
   ],
   "note": "scipy.optimize.minimize is an arbitrary strategy that respects its limit"
  },
  {
   "property": "C119",
   "status": "proved",
   "theorems": [
    "penalty_run_logs",
    "penalty_dict_options",
    "penalty_schedule_across_restarts",
    "penalty_resumes",
    "penalty_resume_refuted",
    "penalty_zero_cycles_refuted"
   ],
   "note": "scipy.optimize.minimize is an arbitrary strategy; mu ** tau is an argument"
  },
  {
   "property": "C120",
   "status": "proved",
   "theorems": [
    "objective_history_free",
    "objective_gradient_exact"
   ],
   "note": "exact numbers and an exact matrix solver; no symmetry; that the layers must be avoided is refuted for the adjoint fields in C36"
  },
  {
   "property": "C121",
   "status": "proved",
   "theorems": [
    "overlap_objective",
    "phase_objective",
    "arbitrary_modes_agree_refuted"
   ],
   "note": "exact numbers and an exact matrix solver; the vectors of waveguide modes are arguments"
  },
  {
   "property": "C122",
   "status": "proved",
   "theorems": [
    "power_range",
    "range_objective_value",
    "range_objective_gradient",
    "range_gradient_refuted"
   ],
   "note": "exact numbers and an exact matrix solver; natural exponents"
  },
  {
   "property": "C123",
   "status": "proved",
   "theorems": [
    "sphere_triangulation",
    "half_sphere_triangulation"
   ],
   "note": "exact real numbers: shared edge points are found by comparing for equality"
  },
  {
   "property": "C124",
   "status": "proved",
   "theorems": [
    "selection_is_region",
    "integration_is_power",
    "full_range_selects_all",
    "unused_point_fails"
   ],
   "note": "exact real numbers"
  },
  {
   "property": "C125",
   "status": "proved",
   "theorems": [
    "spherical_components",
    "spherical_isometry",
    "spherical_other_axes_wrong"
   ],
   "note": "exact real numbers; spheric2cart_matrix and spheric2spheric_matrix read an undefined name and are not modelled"
  },
  {
   "property": "C126",
   "status": "proved",
   "theorems": [
    "scatter_objective",
    "scatter_unusable",
    "directed_power_unusable"
   ],
   "note": "exact numbers and an exact matrix solver; the projection to the far field is an argument"
  },
  {
   "property": "C127",
   "status": "proved",
   "theorems": [
    "gradient_sum_counts_classes",
    "gradient_sum_right_iff",
    "gradient_sum_line_of_classes",
    "library_gradient_sum",
    "shape_used_twice_refuted",
    "pixel_gradient_plus_number",
    "number_plus_pixel_gradient",
    "missing_gradient_not_zero",
    "array_gradients_apart",
    "array_gradients_same"
   ],
   "note": "exact rational numbers; arrays are vectors"
  },
  {
   "property": "C128",
   "status": "proved",
   "theorems": [
    "flags_are_sound",
    "shapes_never_constant",
    "cuboid_flags",
    "array_node_flags_refuted",
    "group_flag_order_refuted"
   ],
   "note": "values abstract"
  },
  {
   "property": "C129",
   "status": "proved",
   "theorems": [
    "cast_to_shape_class_raises",
    "cast_of_shape_raises",
    "rename_others"
   ],
   "note": "values abstract"
  },
  {
   "property": "C130",
   "status": "proved",
   "theorems": [
    "benchmark_single_quadratic",
    "benchmark_two_quadratic",
    "benchmark_quartic",
    "benchmark_quartic_local_refuted",
    "benchmark_rosenbrock",
    "benchmark_linear",
    "benchmark_quadratic",
    "benchmark_ellipsoidal",
    "benchmark_problem_list",
    "benchmark_gradients"
   ],
   "note": "exact real numbers"
  },
  {
   "property": "C131",
   "status": "proved",
   "theorems": [
    "boxed_is_projection",
    "descent_run",
    "descent_fixed_points",
    "descent_converges",
    "descent_large_step_refuted",
    "normalized_descent_refuted"
   ],
   "note": "exact rational numbers; the norm of the gradient is an argument"
  },
  {
   "property": "C132",
   "status": "proved",
   "theorems": [
    "adaptive_iteration_ends",
    "adaptive_run_ends"
   ],
   "note": "exact rational numbers; complements C41, where an objective without minimum never ends"
  },
  {
   "property": "C133",
   "status": "proved",
   "theorems": [
    "phc_efield_is_resonance",
    "phc_hfield_is_resonance",
    "phc_resonance_is_eigenvector",
    "phc_efield_many_raises",
    "phc_unknown_kind",
    "phc_frequencies_real",
    "phc_resonances_real",
    "phc_modes_orthogonal",
    "phc_frequency_shift",
    "phc_operator_hermitian",
    "phc_operator_hermitian_refuted"
   ],
   "note": "the eigenvalue routine, square root and initial FDFD simulation are arguments; shift_orthogonal is zero"
  },
  {
   "property": "C134",
   "status": "proved",
   "theorems": [
    "context_register",
    "context_register_top",
    "context_persistent",
    "context_lookup",
    "context_merge",
    "context_scope",
    "context_pair",
    "context_pair_refuted",
    "context_goos_register",
    "context_goos_lookup",
    "context_goos_merge",
    "context_goos_persistent",
    "context_goos_scope",
    "context_goos_empty"
   ],
   "note": "classes and creators are numbers; reachable states of any program"
  },
  {
   "property": "C135",
   "status": "proved",
   "theorems": [
    "schema_registry_single",
    "schema_registry_forever",
    "schema_registry_scope_refuted"
   ],
   "note": "metadata of the entries not represented"
  },
  {
   "property": "C136",
   "status": "proved",
   "theorems": [
    "monitors_join",
    "monitors_reject",
    "monitors_partition",
    "monitors_find",
    "monitors_objects",
    "monitors_no_id_refuted"
   ],
   "note": "types and operations are numbers; monitors stand for their names"
  },
  {
   "property": "C137",
   "status": "proved",
   "theorems": [
    "space_wavelength_error",
    "space_wavelength_exact",
    "space_wavelength_idempotent",
    "space_wavelength_shared",
    "space_cache_transparent",
    "space_created",
    "space_dims_of_newest",
    "space_dims_constant",
    "space_dims_full",
    "space_dims_stale_refuted",
    "space_foreground_full",
    "space_foreground_direct",
    "space_foreground_reduced"
   ],
   "note": "the floor of the decimal logarithm is a function with its defining property; grids as functions of the wavelength; rounding of floats not represented"
  },
  {
   "property": "C138",
   "status": "proved",
   "theorems": [
    "material_precedence",
    "material_errors",
    "material_named_lossless",
    "material_file",
    "material_sign",
    "material_eps",
    "material_goos_index_only",
    "material_named_refuted"
   ],
   "note": "scipy's pchip_interpolate is any function through its data; its own argument checks not represented"
  },
  {
   "property": "C139",
   "status": "proved",
   "theorems": [
    "axes_good",
    "index_of_position",
    "index_checked",
    "position_of_rounded_index_refuted",
    "position_roundtrip",
    "position_half_cell_off",
    "position_roundtrip_refuted",
    "slice_planes",
    "slice_integer_part",
    "slice_conditions",
    "slice_center_refuted"
   ],
   "note": "rounding of floats and numpy's own shape errors not represented"
  },
  {
   "property": "C140",
   "status": "proved",
   "theorems": [
    "slab_block",
    "slab_rendered",
    "fill_slab_block",
    "fill_cuboid_block",
    "fill_fails",
    "slab_reach_refuted"
   ],
   "note": "points on the faces of a block are left out; slab_rendered assumes a clipper as in C53"
  },
  {
   "property": "C141",
   "status": "proved",
   "theorems": [
    "eig_gradient",
    "eig_gradient_of_field_refuted"
   ],
   "note": "the solver is a parameter; which of the two vectors the external server returns is not visible in the repository"
  },
  {
   "property": "C142",
   "status": "proved",
   "theorems": [
    "eig_gradient_of_last",
    "eig_gradient_sum_refuted",
    "eig_gradient_errors",
    "eig_eval_history",
    "eig_overlap_history_refuted",
    "eig_create"
   ],
   "note": "the TypeError needs at least one output; sources without state"
  },
  {
   "property": "C143",
   "status": "proved",
   "theorems": [
    "remote_symmetric",
    "remote_symmetric_modes",
    "remote_result",
    "remote_adjoint_symmetry",
    "remote_adjoint_scale",
    "remote_pemc",
    "remote_fails",
    "remote_method"
   ],
   "note": "the server is a parameter; what it does with boundary codes is not modelled. The effect of the adjoint scale in absorbing layers is C36"
  },
  {
   "property": "C144",
   "status": "proved",
   "theorems": [
    "remote_upload",
    "remote_upload_refuted",
    "remote_download",
    "remote_wait"
   ],
   "note": "assumes that requests.post reads the file object to its end before it connects, as requests does when it encodes files"
  },
  {
   "property": "C145",
   "status": "proved",
   "theorems": [
    "skew_plane_wave",
    "skew_dispersion",
    "skew_resonance_iff",
    "skew_rejected",
    "skew_far_refuted"
   ],
   "note": "the Bloch vector is real; exact real arithmetic"
  },
  {
   "property": "C146",
   "status": "proved",
   "theorems": [
    "skew_rotation_inverse",
    "skew_div_curl",
    "skew_div_curl_refuted",
    "skew_hermitian",
    "skew_frequencies_real"
   ],
   "note": "Bloch phases of modulus one; the unshifted case on cells of any size is C32, C33 and C62"
  },
  {
   "property": "C147",
   "status": "proved",
   "theorems": [
    "import_interpolates",
    "import_bounded",
    "import_accepts",
    "import_flat_rejected"
   ],
   "note": "scipy's linear RegularGridInterpolator is written out in the model; files with missing entries or without points are excluded by the hypothesis complete"
  },
  {
   "property": "C148",
   "status": "proved",
   "theorems": [
    "import_one_plane",
    "import_two_planes",
    "import_one_plane_refuted",
    "import_some_plane_refuted"
   ],
   "note": "the code doubles the overlap on ties; the positive statements carry the conditions"
  },
  {
   "property": "C149",
   "status": "proved",
   "theorems": [
    "import_positions",
    "import_positions_refuted"
   ],
   "note": ""
  },
  {
   "property": "C150",
   "status": "proved",
   "theorems": [
    "modes_orthogonal",
    "powers_add"
   ],
   "note": "the overlap that EmOverlap computes averages H between cells and is another sum (C106-C109)"
  },
  {
   "property": "C151",
   "status": "proved",
   "theorems": [
    "mode_errors_vanish",
    "h_error_zero",
    "e_error_zero",
    "errors_are_relative"
   ],
   "note": "exact arithmetic; nan and inf are one error value"
  },
  {
   "property": "C152",
   "status": "proved",
   "theorems": [
    "direction_axis",
    "direction_errors",
    "direction_polarity",
    "direction_scale"
   ],
   "note": "exact arithmetic"
  },
  {
   "property": "C153",
   "status": "proved",
   "theorems": [
    "monitor_slice",
    "monitor_whole",
    "monitor_whole_field",
    "monitor_outside",
    "monitor_not_aligned",
    "monitor_wrong_size"
   ],
   "note": ""
  },
  {
   "property": "C154",
   "status": "proved",
   "theorems": [
    "dipole",
    "dipole_negative_axis",
    "dipole_errors"
   ],
   "note": "real frequencies and cell sizes; normalize_by_sim is C103"
  },
  {
   "property": "C155",
   "status": "proved",
   "theorems": [
    "plan_bloch_vector",
    "plan_source_fixed",
    "plan_border_cells",
    "plan_border_normal",
    "plan_border_z"
   ],
   "note": "the current itself is C97-C103"
  },
  {
   "property": "C156",
   "status": "proved",
   "theorems": [
    "far_plane",
    "far_single"
   ],
   "note": "an empty window is not modelled; other polar axes than z, for which cart2spheric_matrix is wrong (C125), are left out. The sizes in dA are those of dxes[1] although the places are cell centers: on non-uniform grids these are not the areas of the cells, which the formula shows"
  },
  {
   "property": "C157",
   "status": "proved",
   "theorems": [
    "far_box"
   ],
   "note": ""
  },
  {
   "property": "C158",
   "status": "proved",
   "theorems": [
    "mirror_shift",
    "mirror_continuation",
    "mirror_refused",
    "shift_arguments"
   ],
   "note": "sizes zero are left out"
  },
  {
   "property": "C159",
   "status": "proved",
   "theorems": [
    "bloch_shift",
    "bloch_round_trip",
    "bloch_other_shift",
    "bloch_derivatives",
    "bloch_round_trip_refuted"
   ],
   "note": "bloch_round_trip_refuted is a witness for the part about phases that are not real"
  },
  {
   "property": "C160",
   "status": "proved",
   "theorems": [
    "custom_between",
    "custom_data",
    "custom_refused"
   ],
   "note": "scipy's pchip_interpolate is modelled from its documentation and source"
  },
  {
   "property": "C161",
   "status": "proved",
   "theorems": [
    "table_ranges",
    "table_passive",
    "silica_infrared",
    "silica_infrared_table"
   ],
   "note": "the tables are copied from the source by a program; wavelengths outside of the tables, where scipy extrapolates, are left out"
  },
  {
   "property": "C162",
   "status": "proved",
   "theorems": [
    "generic_forward",
    "generic_adjoint",
    "generic_pec_source",
    "generic_pec_field"
   ],
   "note": "the matrix solver is a function argument; exact arithmetic"
  },
  {
   "property": "C163",
   "status": "proved",
   "theorems": [
    "qmr_reports",
    "qmr_callback",
    "qmr_callback_refuted"
   ],
   "note": "the iterates of qmr are an argument; the claim that the callback is called is refuted"
  },
  {
   "property": "C164",
   "status": "proved",
   "theorems": [
    "gds_stack",
    "gds_cell",
    "gds_refused",
    "gds_unknown",
    "nm_rounding"
   ],
   "note": "the rendering of cells of more than one material is C53; permittivities without loss"
  },
  {
   "property": "C165",
   "status": "proved",
   "theorems": [
    "mesh_list",
    "mesh_cell",
    "mesh_refusals"
   ],
   "note": "the rendering of cells of more than one material is C53; permittivities without loss"
  },
  {
   "property": "C166",
   "status": "proved",
   "theorems": [
    "hermite_values",
    "hermite_sides",
    "hermite_gradient"
   ],
   "note": "the interpolation matrix is arbitrary"
  },
  {
   "property": "C167",
   "status": "proved",
   "theorems": [
    "hermite_decode",
    "hermite_initial",
    "hermite_constructed",
    "hermite_bounded",
    "hermite_saved",
    "hermite_saved_refuted",
    "hermite_bounds_refuted"
   ],
   "note": "the geometry matrices are arguments; the claims about bounds that fail are refuted"
  }
 ]
}
