#!/usr/bin/env python3
"""Writes MANIFEST.json; keep the table below in step with the Coq files."""
import json

CLAIMS = []


def claim(prop, status, theorems, note):
    CLAIMS.append({"property": prop, "status": status,
                   "theorems": theorems, "note": note})


claim("C01", "proved", ["schedule_topological"],
      "all DAGs, groupings and set orders")
claim("C02", "proved", ["eval_fun_denotation", "eval_fun_never_wrong", "denotation_unique"],
      "value = recursive denotation; needs no direct dependency between expensive nodes for success")
claim("C03", "proved", ["dependent_heavy_nodes_refuted", "heavy_override_ignored_refuted", "eval_fun_denotation"],
      "positive half is eval_fun_denotation; the failure is proved for all node functions and set orders")
claim("C04", "proved", ["eval_grad_chain_rule", "heavy_none_gradient_refuted"],
      "gradients are the transpose of the forward-mode derivative for any pairing; None entries of expensive nodes fail")
claim("C05", "proved", ["inplace_accumulation_fresh", "sum_aliasing_refuted"],
      "refinement for fresh arrays, wrong gradients for Sum")

claim("C06", "proved", ["variables_change_only_in_actions", "plan_locked_between_runs", "frozen_variable_constant"],
      "all histories of calls; actions are arbitrary programs over the API")
claim("C07", "proved", ["thawed_vars_last_mark", "core_ok_kept"],
      "all call sequences whose set_var_value calls address registered variables")
claim("C08", "proved", ["checkpoint_round_trip", "checkpoint_after_completion_refuted"],
      "all states; saving after completion raises IndexError")
claim("C09", "proved", ["resume_runs_action_twice", "resume_correct_if_idempotent", "resume_differs_refuted", "built_plans_tight"],
      "for runs that register no new variables before the checkpoint; actions carry no private state in the model")
claim("C10", "proved", ["step_files_distinct", "event_file_content", "resumed_process_overwrites_refuted"],
      "all histories in one process; a second process overwrites")
claim("C11", "proved", ["run_exception_leaves_plan_writable", "resume_after_completion_refuted"],
      "both outcomes of run, for every plan")
claim("C12", "proved", ["add_node_conservative", "add_node_registers_inputs", "name_clash_drops_inputs_refuted"],
      "unique names needed for the closure part")
claim("C55", "proved", ["resume_ignores_auto_checkpoint_refuted"],
      "for every plan and checkpoint")

claim("C13", "proved", ["generated_names_distinct", "user_names_without_dot_free", "names_repeat_after_restart_refuted"],
      "all histories of requests in a process; counters restart in a new process")
claim("C14", "proved", ["goos_version_accepted_iff", "goos_version_sound", "goos_version_complete", "goos_version_not_monotone_refuted",
      "invdes_version_accepted_iff", "invdes_version_message_refuted"],
      "on parsed version parts; both packages")
claim("C15", "proved", ["dumps_succeeds_iff", "dumps_fails_with_ValueError", "dumps_lists_every_node_once", "loads_dumps_round_trip",
      "loads_succeeds_iff", "loads_errors"],
      "all finite object trees; JSON text and field validation not modelled")

claim("C16", "proved", ["same_object_ever_after", "one_object_per_name", "object_belongs_to_node", "requests_succeed",
      "name_clash_gets_first_object", "name_clash_before_creation", "name_clash_silent_refuted"],
      "all request histories; creators request all nodes they refer to")
claim("C17", "proved", ["resume_at_boundary", "resume_anywhere"],
      "all plans; crashes between file writes; a transformation changes only its own parametrization")
claim("C18", "proved", ["resumed_logs_consecutive", "resumed_logs_never_overwrite", "latest_log_is_last_written"],
      "all folder histories of resuming and non-resuming processes")
claim("C56", "proved", ["resume_midway_loses_parameters_refuted"], "witness plan and crash point")
claim("C57", "proved", ["resume_unlisted_parameter_refuted", "resume_duplicate_names_refuted", "rerun_in_used_folder_refuted"],
      "one witness per failure")

claim("C19", "proved", ["cache_transparent", "cache_keeps_size", "cache_is_lru", "solver_runs_only_on_misses", "cache_size_zero_refuted"],
      "solver deterministic; comparison of structures is equality; cache size 0 raises IndexError")
claim("C20", "proved", ["careful_callers_get_current_fields", "structure_updated_in_place_refuted", "fields_updated_in_place_refuted"],
      "arrays in a heap compared by current contents")
claim("C21", "proved", ["concurrent_calls_linearize", "concurrent_results", "one_solve_at_a_time", "no_deadlock"],
      "one step per statement of simulate; any number of threads, any schedule")

claim("C25", "proved", ["raster_1D_exact", "raster_1D_errors"], "exact rationals; grid increasing")
claim("C26", "proved", ["rendering_entry", "rendering_indices", "rendering_rows", "rendering_values", "rendering_constant",
      "rendering_within_bounds"], "exact rationals; grid increasing, shape edges nondecreasing")
claim("C27", "proved", ["render_grad_real", "render_grad_complex", "render_grad_complex_refuted"],
      "all grids and shapes; exact rationals, default Yee shifts")
claim("C28", "proved", ["edge_coords_centred", "edge_coords_cover", "edge_coords_symmetric", "edge_coords_symmetric_degenerate",
      "edge_coords_invdes_uniform", "edge_coords_invdes_centred_refuted"], "exact rationals, one axis")
claim("C29", "proved", ["region_slice_covers", "region_slice_outside", "region_slice_centre_refuted"], "exact rationals, one axis")
claim("C58", "proved", ["pixel_count_is_ceiling", "pixel_edges", "pixel_sizes"], "exact rationals, one axis")
claim("C59", "proved", ["shifted_sizes_match_edges", "shifted_sizes_refuted", "render_edges_valid"], "exact rationals, one axis")
claim("C60", "proved", ["rendered_value", "rendered_uniform"], "exact rationals, default Yee shifts")
claim("C22", "proved", ["direct_constructed", "grating_constructed", "composite_constructed", "decode_encode", "decode_total",
      "from_to_vector", "composite_split", "composite_structure", "composite_jacobian", "composite_bounds", "bounds_respected",
      "deserialize_serialize", "serialize_total"], "exact rationals; array sharing not modelled")
claim("C23", "proved", ["slack_equivalent", "slack_constraint_gradient", "slack_bounds", "slack_bounds_composite_fail",
      "slack_negative_refuted"], "arbitrary objective and constraint functions")
claim("C24", "proved", ["grating_area_fraction", "grating_range_total", "grating_complement", "grating_no_pixels"], "exact rationals")
claim("C39", "proved", ["direct_projection", "projection_total", "projection_idempotent"], "exact rationals; bounds may be infinite")
claim("C61", "proved", ["grating_derivative", "grating_derivative_left_refuted"], "exact rationals")
claim("C30", "proved", ["vec_position", "vec_size", "unvec_vec", "vec_unvec", "unvec_succeeds_iff"], "three-component fields")
claim("C31", "proved", ["curl_e_functional", "curl_h_functional"], "over any field with conjugation")
claim("C32", "proved", ["div_curl_e", "div_curl_h", "curl_grad_e", "curl_grad_h"], "also with Bloch factors, and curl grad = 0")
claim("C33", "proved", ["preconditioned_symmetric", "preconditioned_transpose"], "square roots of the weights are assumed to exist, as in numpy over C")
claim("C34", "proved", ["e_full_functional", "e_full_functional_inverse_mu", "e_full_functional_mu_refuted", "e2h_functional"], "")
claim("C35", "proved", ["local_solver_forward", "local_solver_adjoint", "local_solver_unsupported"], "the inner solver is any function that solves the preconditioned system")
claim("C36", "proved", ["adjoint_simulation_real", "adjoint_simulation_pml", "adjoint_simulation_refuted"], "")
claim("C62", "proved", ["rotation_acts_on_lattice", "rotation_rejects_parallel_shift", "bloch_forward_derivative", "bloch_backward_derivative"], "")
claim("C63", "proved", ["preconditioned_hermitian"], "")
claim("C64", "proved", ["first_order_gives_e_full", "first_order_gives_h_full", "e2h_completes_e", "h2e_recovers_e", "eh_full_functional", "eh_full_needs_mu"], "")
claim("C65", "proved", ["poynting_value", "poynting_forms_agree", "poynting_theorem", "power_balance", "poynting_theorem_refuted"], "")
claim("C66", "proved", ["set_variable_action", "parameters_stay_frozen"], "node-valued assignments")
claim("C37", "proved", ["scpml_cell_widths", "scpml_absorption_sign", "scpml_absorption_front", "scpml_absorption_back", "scpml_defined", "scpml_error", "scpml_integer_layers", "scpml_leaves_input_alone", "stretch_leaves_input_refuted", "scpml_overlap_refuted"], "default absorption profile, epsilon_effective 1")
claim("C67", "proved", ["uniform_grid_cells", "uniform_equals_stretched_refuted"], "default absorption profile")
claim("C68", "proved", ["periodic_dx"], "")
claim("C69", "proved", ["nonuniform_grid", "nonuniform_first_point_refuted", "nonuniform_gradual_refuted"], "per axis")
claim("C40", "proved", ["optimize_stops", "optimize_limit", "optimize_split", "optimize_zero_refuted"], "")
claim("C41", "proved", ["adaptive_step", "adaptive_run", "adaptive_terminates_refuted"], "")
claim("C42", "proved", ["penalty_schedule", "penalty_second_call", "penalty_monotone", "penalty_small_weight_refuted"], "mu ** tau is a function argument")
claim("C43", "proved", ["constraint_types", "constraints_accepted", "constraints_faithful", "constraints_weaker", "constraints_last_only_refuted"], "values of constraints; the Jacobian closures are built the same way")
claim("C44", "proved", ["unpack_after_pack", "pack_after_unpack", "unpack_spec", "bounds_line_up", "bounds_line_up_refuted"], "")
claim("C70", "proved", ["adam_step", "adagrad_step", "rmsprop_step", "nag_step", "adam_iterate_alone_refuted"], "square root is a function argument")
claim("C71", "proved", ["auglag_call_spec", "auglag_update", "auglag_optimal"], "powers of mu are function arguments")
claim("C72", "proved", ["resumed_limit", "resumed_total_refuted"], "")
claim("C45", "proved", ["grating_constraints_meaning", "grating_constraint_errors", "grating_constraint_jacobian", "composite_constraints_meaning", "composite_constraint_jacobian", "edge_constraint_meaning", "edge_constraint_jacobian", "edge_constraint_gradient_refuted"], "")
claim("C46", "proved", ["dp_returns_best", "dp_subpixel_refuted", "dp_flat_refuted", "dp_zero_feature_refuted"], "squared error, the only error function used")
claim("C73", "proved", ["discretization_is_best", "discretization_rejects_small_features", "widths_restore_edges", "widths_obey_features", "stored_bounds_first_refuted", "stored_bounds_level_refuted"], "without the separate discretization features")
claim("C74", "proved", ["pixelated_is_filled_area", "pixelated_in_unit_interval", "pixelated_thin_layer_refuted", "widths_gradient_adjoint"], "")
claim("C75", "proved", ["barcode_bars_tile"], "one axis")
claim("C38", "proved", ["direct_lattice_average", "direct_lattice_partition", "direct_lattice_bounds", "old_lattice_average", "old_lattice_partition", "reduced_lattice_average", "reduced_lattice_partition", "selection_permittivity", "reduced_permittivity"], "rational permittivities; default wrap_or_clip")
claim("C76", "proved", ["selection_design_bounds", "selection_empty_design", "selection_all_ones", "selection_reaches_foreground", "reduced_reaches_foreground", "selection_foreground_refuted", "selection_one_component_refuted"], "rational permittivities")
claim("C77", "proved", ["far_edge_values", "far_edge_row_sums", "far_edge_partition_refuted"], "")
claim("C78", "proved", ["resume_from_event_file", "resume_continues_action", "resume_without_support_refuted", "resume_empty_event_refuted"], "actions without private Python state")
claim("C47", "proved", ["fit_gradient_is_half", "fit_gradient_refuted"], "real structure and derivative, complex permittivities and selection matrix")
claim("C48", "proved", ["log_sum_exp_bounds", "log_sum_exp_weights", "softmax_average_bounds"], "")
claim("C49", "proved", ["operators_mean_arithmetic", "operators_gradient", "weighted_sum_value", "array_product_adds", "array_product_refuted"], "scalar-valued objectives over the reals")
claim("C79", "proved", ["objective_function_value", "gradient_is_derivative", "class_partials", "two_variables_rejected", "gradient_of_power_zero_refuted"], "scalar-valued objectives over the reals")
claim("C80", "proved", ["constraints_split"], "")
claim("C50", "proved", ["top_cell_automatic", "top_cell_automatic_found", "top_cell_automatic_errors", "top_cell_by_name", "top_cell_order_refuted", "top_cell_empty_refuted"], "")
claim("C51", "proved", ["group_order", "group_gradient"], "")
claim("C52", "proved", ["slice_index", "slice_center", "slice_not_given", "slice_zero_refuted", "slice_minus_one_refuted"], "")
claim("C54", "proved", ["log_files_any_order", "transformations_listed", "joined_monitors", "joined_iterations", "joined_empty_log", "joined_unnumbered_refuted", "joined_lengths_refuted"], "")
claim("C81", "proved", ["single_value", "single_value_empty_log", "single_value_iteration_refuted", "single_value_unnumbered_refuted"], "")
claim("C82", "proved", ["layer_polygons", "layer_polygons_mixed_refuted", "bounding_box_tight", "bounding_boxes_one_each", "box_geometry"], "parsing of the file is external")
claim("C83", "proved", ["raster_2D_average", "raster_2D_covered", "raster_2D_orientation", "raster_2D_start", "raster_2D_errors", "raster_2D_vertical_refuted", "raster_2D_bow_tie_refuted"], "rational vertices and edges; areas as Riemann integrals")
claim("C53", "proved", ["render_exact", "render_bounds", "render_uniform", "render_overlay", "render_disjoint", "disable_intersection_refuted", "render_num_grids_refuted", "draw_polygon_block", "draw_cuboid_block", "draw_errors"], "exact rationals; the external polygon subtraction is a parameter with its specification as hypothesis, met for rectangles by rect_not")
claim("C84", "proved", ["goos_gradient_correct", "goos_partial_derivatives", "goos_gradient_shared_refuted", "goos_gradient_broadcast_refuted", "goos_gradient_constant_refuted", "goos_gradient_complex_refuted"], "exact complex numbers; arrays as lists of entries")
claim("C85", "proved", ["goos_add", "goos_mul", "goos_neg", "goos_sub", "goos_div", "goos_pow", "goos_add_evaluates", "goos_mul_evaluates", "goos_flattening_refuted"], "exact complex numbers; arrays as lists of entries")
claim("C86", "proved", ["simulation_history_free", "simulation_backprop", "overlap_gradient_exact", "diff_gradient_exact"], "the inner linear solver is a parameter assumed to solve regular systems")
claim("C87", "proved", ["power_gradient_is_half", "power_gradient_refuted"], "the inner linear solver is a parameter assumed to solve regular systems")
claim("C88", "proved", ["goos_simulation_history", "goos_simulation_history_refuted", "goos_simulation_gradient", "goos_simulation_gradient_errors", "goos_simulation_symmetry", "goos_simulation_real"], "mode solver and beams are function arguments; direct solver")
claim("C89", "proved", ["gen_gds_even_odd", "gen_gds_plain", "gen_gds_no_vertices", "gen_gds_ends_refuted", "gen_gds_even_odd_refuted"], "point test and boolean NOT of gdspy are parameters assumed exact")
claim("C90", "proved", ["eigenvector_is_mode"], "the eigenvalue solver is not modelled")
claim("C91", "proved", ["source_emits_one_way"], "")
claim("C92", "proved", ["mode_source_one_way"], "the eigenvector is an argument; exact complex numbers")
claim("C93", "proved", ["wavenumber_correction_worsens", "wavenumber_correction_no_decay", "tools_correction_helps"], "")
claim("C94", "proved", ["source_ignores_eigenvector_phase", "source_power"], "the eigenvector is an argument; exact complex numbers")
claim("C95", "proved", ["power_is_conserved"], "")
claim("C96", "proved", ["normalized_power_one", "normalized_power_one_refuted", "forward_mode_refused_refuted"], "exact complex numbers")
claim("C97", "proved", ["beam_frame", "beam_straight", "plane_wave_field", "magnetic_field"], "exact numbers; mu is None")
claim("C98", "proved", ["gaussian_source", "gaussian_center_z", "gaussian_center_refuted"], "exact numbers; mu is None")
claim("C99", "proved", ["gaussian_power", "plane_wave_power_ignored", "plane_wave_source"], "the power of the beam is stated by the derivative with respect to the radius")
claim("C100", "proved", ["cut_current_one_sided", "plane_wave_residual", "plane_wave_residual_size", "first_plane_empty"], "the residual for angles zero")
claim("C101", "proved", ["plane_wave_second_call", "gaussian_calls_drift"], "")
claim("C102", "proved", ["mask_between", "mask_one_inside", "mask_zero_edge", "mask_zero_outside", "borders_used", "large_border_raises", "half_border_ignored"], "")
claim("C103", "proved", ["normalized_source_emits"], "the solver is a parameter; real factors")
claim("C104", "proved", ["goos_slices", "goos_slice_last_refuted", "goos_max", "goos_max_shapes", "goos_norm", "goos_abs", "goos_dot", "goos_sigmoid", "goos_conj"], "exact complex numbers; arrays as lists of entries")
claim("C105", "proved", ["overlap_is_flux_pairing", "built_overlap_is_flux_pairing"], "the eigenvector is an argument; exact complex numbers; division by a zero norm (nan in numpy) is an error value")
claim("C106", "proved", ["overlap_measures_mode", "source_reaches_overlap"], "the eigenvector is an argument; exact complex numbers")
claim("C107", "proved", ["overlap_is_local"], "")
claim("C108", "proved", ["overlap_ignores_eigenvector_phase"], "the eigenvector is an argument")
claim("C109", "proved", ["backward_wave_rejected_refuted"], "the documented claim is false of the code; the witness is a line of five cells")

claim("C110", "proved", ["cubic_interpolates", "cubic_quadratics", "cubic_constants", "cubic_outside_refused"], "exact real numbers")
claim("C111", "proved", ["cubic_slopes"], "exact real numbers")
claim("C112", "proved", ["geometry_reaches_exactly", "geometry_reads_back", "geometry_misfit_refused"], "")
claim("C113", "proved", ["cubic_mirror_x", "cubic_mirror_y", "cubic_period_x", "cubic_period_y", "cubic_mirror_refuted"], "exact real numbers")
claim("C114", "proved", ["cubic_values_open", "cubic_uniform", "cubic_gradient", "cubic_project", "cubic_overshoot_refuted"], "exact real numbers; scalar bounds")
claim("C115", "proved", ["open_axis_grids", "goos_parametrization", "plan_parametrization", "plan_periods_refuted"], "exact real numbers")
claim("C116", "proved", ["scipy_run_logs", "scipy_rerun_logs", "scipy_ended", "scipy_without_options", "scipy_dict_options", "scipy_logs_other_point_refuted"], "scipy.optimize.minimize is an arbitrary strategy; items() of a schema model is taken to be a list")
claim("C117", "proved", ["scipy_resumes", "plan_of_optimizations_resumes", "scipy_resume_memory_refuted"], "scipy.optimize.minimize is an arbitrary strategy")
claim("C118", "proved", ["scipy_limit_across_restarts"], "scipy.optimize.minimize is an arbitrary strategy that respects its limit")
claim("C119", "proved", ["penalty_run_logs", "penalty_dict_options", "penalty_schedule_across_restarts", "penalty_resumes", "penalty_resume_refuted", "penalty_zero_cycles_refuted"], "scipy.optimize.minimize is an arbitrary strategy; mu ** tau is an argument")

claim("C120", "proved", ["objective_history_free", "objective_gradient_exact"], "exact numbers and an exact matrix solver; no symmetry; that the layers must be avoided is refuted for the adjoint fields in C36")
claim("C121", "proved", ["overlap_objective", "phase_objective", "arbitrary_modes_agree_refuted"], "exact numbers and an exact matrix solver; the vectors of waveguide modes are arguments")
claim("C122", "proved", ["power_range", "range_objective_value", "range_objective_gradient", "range_gradient_refuted"], "exact numbers and an exact matrix solver; natural exponents")

claim("C123", "proved", ["sphere_triangulation", "half_sphere_triangulation"], "exact real numbers: shared edge points are found by comparing for equality")
claim("C124", "proved", ["selection_is_region", "integration_is_power", "full_range_selects_all", "unused_point_fails"], "exact real numbers")
claim("C125", "proved", ["spherical_components", "spherical_isometry", "spherical_other_axes_wrong"], "exact real numbers; spheric2cart_matrix and spheric2spheric_matrix read an undefined name and are not modelled")
claim("C126", "proved", ["scatter_objective", "scatter_unusable", "directed_power_unusable"], "exact numbers and an exact matrix solver; the projection to the far field is an argument")
claim("C127", "proved", ["gradient_sum_counts_classes", "gradient_sum_right_iff", "gradient_sum_line_of_classes", "library_gradient_sum", "shape_used_twice_refuted", "pixel_gradient_plus_number", "number_plus_pixel_gradient", "missing_gradient_not_zero", "array_gradients_apart", "array_gradients_same"], "exact rational numbers; arrays are vectors")
claim("C128", "proved", ["flags_are_sound", "shapes_never_constant", "cuboid_flags", "array_node_flags_refuted", "group_flag_order_refuted"], "values abstract")
claim("C129", "proved", ["cast_to_shape_class_raises", "cast_of_shape_raises", "rename_others"], "values abstract")
claim("C130", "proved", ["benchmark_single_quadratic", "benchmark_two_quadratic", "benchmark_quartic", "benchmark_quartic_local_refuted", "benchmark_rosenbrock", "benchmark_linear", "benchmark_quadratic", "benchmark_ellipsoidal", "benchmark_problem_list", "benchmark_gradients"], "exact real numbers")
claim("C131", "proved", ["boxed_is_projection", "descent_run", "descent_fixed_points", "descent_converges", "descent_large_step_refuted", "normalized_descent_refuted"], "exact rational numbers; the norm of the gradient is an argument")
claim("C132", "proved", ["adaptive_iteration_ends", "adaptive_run_ends"], "exact rational numbers; complements C41, where an objective without minimum never ends")
claim("C133", "proved", ["phc_efield_is_resonance", "phc_hfield_is_resonance", "phc_resonance_is_eigenvector", "phc_efield_many_raises", "phc_unknown_kind", "phc_frequencies_real", "phc_resonances_real", "phc_modes_orthogonal", "phc_frequency_shift", "phc_operator_hermitian", "phc_operator_hermitian_refuted"], "the eigenvalue routine, square root and initial FDFD simulation are arguments; shift_orthogonal is zero")
claim("C134", "proved", ["context_register", "context_register_top", "context_persistent", "context_lookup", "context_merge", "context_scope", "context_pair", "context_pair_refuted", "context_goos_register", "context_goos_lookup", "context_goos_merge", "context_goos_persistent", "context_goos_scope", "context_goos_empty"], "classes and creators are numbers; reachable states of any program")
claim("C135", "proved", ["schema_registry_single", "schema_registry_forever", "schema_registry_scope_refuted"], "metadata of the entries not represented")
claim("C136", "proved", ["monitors_join", "monitors_reject", "monitors_partition", "monitors_find", "monitors_objects", "monitors_no_id_refuted"], "types and operations are numbers; monitors stand for their names")
claim("C137", "proved", ["space_wavelength_error", "space_wavelength_exact", "space_wavelength_idempotent", "space_wavelength_shared", "space_cache_transparent", "space_created", "space_dims_of_newest", "space_dims_constant", "space_dims_full", "space_dims_stale_refuted", "space_foreground_full", "space_foreground_direct", "space_foreground_reduced"], "the floor of the decimal logarithm is a function with its defining property; grids as functions of the wavelength; rounding of floats not represented")
claim("C138", "proved", ["material_precedence", "material_errors", "material_named_lossless", "material_file", "material_sign","material_eps", "material_goos_index_only", "material_named_refuted"], "scipy's pchip_interpolate is any function through its data; its own argument checks not represented")
claim("C139", "proved", ["axes_good", "index_of_position", "index_checked", "position_of_rounded_index_refuted", "position_roundtrip", "position_half_cell_off", "position_roundtrip_refuted", "slice_planes", "slice_integer_part", "slice_conditions", "slice_center_refuted"], "rounding of floats and numpy's own shape errors not represented")
claim("C140", "proved", ["slab_block", "slab_rendered", "fill_slab_block", "fill_cuboid_block", "fill_fails", "slab_reach_refuted"], "points on the faces of a block are left out; slab_rendered assumes a clipper as in C53")
claim("C141", "proved", ["eig_gradient", "eig_gradient_of_field_refuted"], "the solver is a parameter; which of the two vectors the external server returns is not visible in the repository")
claim("C142", "proved", ["eig_gradient_of_last", "eig_gradient_sum_refuted", "eig_gradient_errors", "eig_eval_history", "eig_overlap_history_refuted", "eig_create"], "the TypeError needs at least one output; sources without state")
claim("C143", "proved", ["remote_symmetric", "remote_symmetric_modes", "remote_result", "remote_adjoint_symmetry", "remote_adjoint_scale", "remote_pemc", "remote_fails", "remote_method"], "the server is a parameter; what it does with boundary codes is not modelled. The effect of the adjoint scale in absorbing layers is C36")
claim("C144", "proved", ["remote_upload", "remote_upload_refuted", "remote_download", "remote_wait"], "assumes that requests.post reads the file object to its end before it connects, as requests does when it encodes files")
claim("C145", "proved", ["skew_plane_wave", "skew_dispersion", "skew_resonance_iff", "skew_rejected", "skew_far_refuted"], "the Bloch vector is real; exact real arithmetic")
claim("C146", "proved", ["skew_rotation_inverse", "skew_div_curl", "skew_div_curl_refuted", "skew_hermitian", "skew_frequencies_real"], "Bloch phases of modulus one; the unshifted case on cells of any size is C32, C33 and C62")
claim("C147", "proved", ["import_interpolates", "import_bounded", "import_accepts", "import_flat_rejected"], "scipy's linear RegularGridInterpolator is written out in the model; files with missing entries or without points are excluded by the hypothesis complete")
claim("C148", "proved", ["import_one_plane", "import_two_planes", "import_one_plane_refuted", "import_some_plane_refuted"], "the code doubles the overlap on ties; the positive statements carry the conditions")
claim("C149", "proved", ["import_positions", "import_positions_refuted"], "")
claim("C150", "proved", ["modes_orthogonal", "powers_add"], "the overlap that EmOverlap computes averages H between cells and is another sum (C106-C109)")
claim("C151", "proved", ["mode_errors_vanish", "h_error_zero", "e_error_zero", "errors_are_relative"], "exact arithmetic; nan and inf are one error value")
claim("C152", "proved", ["direction_axis", "direction_errors", "direction_polarity", "direction_scale"], "exact arithmetic")
claim("C153", "proved", ["monitor_slice", "monitor_whole", "monitor_whole_field", "monitor_outside", "monitor_not_aligned", "monitor_wrong_size"], "")
claim("C154", "proved", ["dipole", "dipole_negative_axis", "dipole_errors"], "real frequencies and cell sizes; normalize_by_sim is C103")
claim("C155", "proved", ["plan_bloch_vector", "plan_source_fixed", "plan_border_cells", "plan_border_normal", "plan_border_z"], "the current itself is C97-C103")
claim("C156", "proved", ["far_plane", "far_single"], "an empty window is not modelled; other polar axes than z, for which cart2spheric_matrix is wrong (C125), are left out. The sizes in dA are those of dxes[1] although the places are cell centers: on non-uniform grids these are not the areas of the cells, which the formula shows")
claim("C157", "proved", ["far_box"], "")
claim("C158", "proved", ["mirror_shift", "mirror_continuation", "mirror_refused", "shift_arguments"], "sizes zero are left out")
claim("C159", "proved", ["bloch_shift", "bloch_round_trip", "bloch_other_shift", "bloch_derivatives", "bloch_round_trip_refuted"], "bloch_round_trip_refuted is a witness for the part about phases that are not real")
claim("C160", "proved", ["custom_between", "custom_data", "custom_refused"], "scipy's pchip_interpolate is modelled from its documentation and source")
claim("C161", "proved", ["table_ranges", "table_passive", "silica_infrared", "silica_infrared_table"], "the tables are copied from the source by a program; wavelengths outside of the tables, where scipy extrapolates, are left out")
claim("C162", "proved", ["generic_forward", "generic_adjoint", "generic_pec_source", "generic_pec_field"], "the matrix solver is a function argument; exact arithmetic")
claim("C163", "proved", ["qmr_reports", "qmr_callback", "qmr_callback_refuted"], "the iterates of qmr are an argument; the claim that the callback is called is refuted")
claim("C164", "proved", ["gds_stack", "gds_cell", "gds_refused", "gds_unknown", "nm_rounding"], "the rendering of cells of more than one material is C53; permittivities without loss")
claim("C165", "proved", ["mesh_list", "mesh_cell", "mesh_refusals"], "the rendering of cells of more than one material is C53; permittivities without loss")
claim("C166", "proved", ["hermite_values", "hermite_sides", "hermite_gradient"], "the interpolation matrix is arbitrary")
claim("C167", "proved", ["hermite_decode", "hermite_initial", "hermite_constructed", "hermite_bounded", "hermite_saved", "hermite_saved_refuted", "hermite_bounds_refuted"], "the geometry matrices are arguments; the claims about bounds that fail are refuted")

if __name__ == "__main__":
    import os
    path = os.path.join(os.path.dirname(__file__), "..", "MANIFEST.json")
    with open(path, "w") as f:
        json.dump({"claims": CLAIMS}, f, indent=1)
        f.write("\n")
