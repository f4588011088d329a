{
 "claims": [
  {
   "property": "C01",
   "status": "proved",
   "theorems": [
    "C01_ijk_flat_roundtrip",
    "C01_flat_ijk_roundtrip",
    "C01_order",
    "C01_window_indices"
   ],
   "note": ""
  },
  {
   "property": "C02",
   "status": "proved",
   "theorems": [
    "C02_window_addressing",
    "C02_sanity_check_refuted",
    "C02_sanity_check",
    "C02_equality"
   ],
   "note": "Second half of the statement is the refutation: sanity_check accepts windows that do not fit."
  },
  {
   "property": "C03",
   "status": "proved",
   "theorems": [
    "C03_refine_partition"
   ],
   "note": ""
  },
  {
   "property": "C04",
   "status": "proved",
   "theorems": [
    "C04_forward_iteration",
    "C04_spec_enumeration"
   ],
   "note": ""
  },
  {
   "property": "C05",
   "status": "proved",
   "theorems": [
    "C05_random_access",
    "C05_index",
    "C05_index_end",
    "C05_before_begin_refuted"
   ],
   "note": "C05_before_begin_refuted records that the agreement stops at begin()."
  },
  {
   "property": "C06",
   "status": "proved",
   "theorems": [
    "C06_empty_window_refuted",
    "C06_empty_in_z"
   ],
   "note": "Proved as stated (the user's expectation is refuted): end() of a window empty in x or y is undefined behaviour."
  },
  {
   "property": "C07",
   "status": "proved",
   "theorems": [
    "C07_min_laws",
    "C07_finite_add_laws",
    "C07_infinite_laws",
    "C07_constructed_wf",
    "C07_setters",
    "C07_equality",
    "C07_infinite_add_commutes_refuted"
   ],
   "note": ""
  },
  {
   "property": "C08",
   "status": "proved",
   "theorems": [
    "C08_point_to_ghost_exact"
   ],
   "note": ""
  },
  {
   "property": "C09",
   "status": "proved",
   "theorems": [
    "C09_field_layout",
    "C09_extra_counts"
   ],
   "note": ""
  },
  {
   "property": "C10",
   "status": "proved",
   "theorems": [
    "C10_reset_history",
    "C10_active_window",
    "C10_degenerate_direction_refuted",
    "C10_views",
    "C10_reduced_view_refuted"
   ],
   "note": ""
  },
  {
   "property": "C11",
   "status": "proved",
   "theorems": [
    "C11_assign",
    "C11_assign_throws",
    "C11_region_has_interior"
   ],
   "note": ""
  },
  {
   "property": "C12",
   "status": "proved",
   "theorems": [
    "C12_accesses"
   ],
   "note": ""
  },
  {
   "property": "C13",
   "status": "proved",
   "theorems": [
    "C13_windows_agree",
    "C13_user_fields"
   ],
   "note": ""
  },
  {
   "property": "C14",
   "status": "proved",
   "theorems": [
    "C14_interior_assign",
    "C14_unchecked_refuted"
   ],
   "note": "Second half of the statement is a refutation witness: without enough source ghosts the release build reads outside the block."
  },
  {
   "property": "C15",
   "status": "proved",
   "theorems": [
    "C15_parallel_assign",
    "C15_parallel_interior_assign",
    "C15_zero_partitions",
    "C15_readonly_never_returns"
   ],
   "note": ""
  },
  {
   "property": "C16",
   "status": "proved",
   "theorems": [
    "C16_partition_visits",
    "C16_partition_fits"
   ],
   "note": ""
  },
  {
   "property": "C17",
   "status": "proved",
   "theorems": [
    "C17_fold",
    "C17_fold_interior",
    "C17_max_min",
    "C17_sum_norm",
    "C17_max_min_interior",
    "C17_sum_norm_interior",
    "C17_interior_extra_refuted",
    "C17_no_field_refuted"
   ],
   "note": "C17_interior_extra_refuted records that the interior reductions skip the boundary extra cells that interior_assign writes."
  },
  {
   "property": "C18",
   "status": "proved",
   "theorems": [
    "C18_first_true",
    "C18_kind",
    "C18_known",
    "C18_assign"
   ],
   "note": ""
  },
  {
   "property": "C19",
   "status": "proved",
   "theorems": [
    "C19_valid_ghosts_refuted",
    "C19_record_covered",
    "C19_record_repaired"
   ],
   "note": "The documented behaviour is refuted (C19_valid_ghosts_refuted); the other theorems say what holds instead."
  },
  {
   "property": "C20",
   "status": "proved",
   "theorems": [
    "C20_mask_membership"
   ],
   "note": ""
  },
  {
   "property": "C21",
   "status": "proved",
   "theorems": [
    "C21_mask_iteration"
   ],
   "note": ""
  },
  {
   "property": "C22",
   "status": "proved",
   "theorems": [
    "C22_get_exclusive"
   ],
   "note": ""
  },
  {
   "property": "C23",
   "status": "proved",
   "theorems": [
    "C23_accounting",
    "C23_put_accepted"
   ],
   "note": ""
  },
  {
   "property": "C24",
   "status": "proved",
   "theorems": [
    "C24_double_put",
    "C24_foreign_put",
    "C24_never_rejected",
    "C24_unused_pool",
    "C24_active_wrong"
   ],
   "note": "Refutation of the safety a user would expect: each theorem is a concrete misuse that the pool accepts."
  },
  {
   "property": "C25",
   "status": "proved",
   "theorems": [
    "C25_never_fails",
    "C25_alive",
    "C25_observe",
    "C25_observe_null",
    "C25_memory",
    "C25_all_given_back",
    "C25_null_copy_refuted"
   ],
   "note": "C25_null_copy_refuted records the limit: copying a null handle is undefined behaviour."
  },
  {
   "property": "C26",
   "status": "proved",
   "theorems": [
    "C26_self_assign_shared",
    "C26_self_assign_refuted",
    "C26_detach_sole",
    "C26_detach_shared_refuted"
   ],
   "note": "The statement as a user would want it is false; it is proved for sole-owner detach and shared self-assignment and refuted (in general, not only on an example) for the other two cases."
  },
  {
   "property": "C27",
   "status": "proved",
   "theorems": [
    "C27_retrieve",
    "C27_register",
    "C27_stable",
    "C27_deleted",
    "C27_registered_twice_refuted"
   ],
   "note": ""
  },
  {
   "property": "C28",
   "status": "proved",
   "theorems": [
    "C28_count",
    "C28_exact",
    "C28_exclusive",
    "C28_no_lost_wakeup",
    "C28_stuck",
    "C28_finish",
    "C28_lifetime"
   ],
   "note": ""
  },
  {
   "property": "C29",
   "status": "proved",
   "theorems": [
    "C29_returns_after_all_jobs",
    "C29_blocked_only_by_failure"
   ],
   "note": ""
  },
  {
   "property": "C30",
   "status": "proved",
   "theorems": [
    "C30_places",
    "C30_once",
    "C30_fifo",
    "C30_prio",
    "C30_lifo",
    "C30_queue"
   ],
   "note": ""
  },
  {
   "property": "C31",
   "status": "proved",
   "theorems": [
    "C31_zero_pool",
    "C31_start",
    "C31_limit"
   ],
   "note": ""
  },
  {
   "property": "C32",
   "status": "proved",
   "theorems": [
    "C32_awake",
    "C32_work_conserved",
    "C32_drains",
    "C32_raised_limit_refuted",
    "C32_unreplaced_refuted"
   ],
   "note": "Holds while the limit is only raised with nothing queued; C32_raised_limit_refuted and C32_unreplaced_refuted show the two ways in which the pool does sleep with work queued."
  },
  {
   "property": "C33",
   "status": "proved",
   "theorems": [
    "C33_at_most",
    "C33_serial_exact",
    "C33_exact_refuted"
   ],
   "note": "The statement as a user reads it is false (C33_exact_refuted); at most n always holds and exactly n when exits do not overlap."
  },
  {
   "property": "C34",
   "status": "proved",
   "theorems": [
    "C34_two_points",
    "C34_four_points",
    "C34_registered",
    "C34_same_place"
   ],
   "note": ""
  },
  {
   "property": "C35",
   "status": "proved",
   "theorems": [
    "C35_all_build",
    "C35_catalogue",
    "C35_interpolate",
    "C35_differentiate",
    "C35_gradient_of_constant",
    "C35_linear",
    "C35_interpolate_fields",
    "C35_differentiate_fields"
   ],
   "note": ""
  },
  {
   "property": "C36",
   "status": "proved",
   "theorems": [
    "C36_row",
    "C36_rows"
   ],
   "note": ""
  },
  {
   "property": "C37",
   "status": "proved",
   "theorems": [
    "C37_mean",
    "C37_bounds",
    "C37_bounds_any_box",
    "C37_small_boxes",
    "C37_constant",
    "C37_linear"
   ],
   "note": ""
  },
  {
   "property": "C38",
   "status": "proved",
   "theorems": [
    "C38_nebo",
    "C38_chained_refuted",
    "C38_field",
    "C38_scalar",
    "C38_get_coef",
    "C38_op",
    "C38_two_point",
    "C38_op_side"
   ],
   "note": "The unconditional claim is refuted by C38_chained_refuted; proved when no source cell is overwritten later in the sweep."
  },
  {
   "property": "C39",
   "status": "proved",
   "theorems": [
    "C39_list",
    "C39_ghost_refuted",
    "C39_no_side_refuted"
   ],
   "note": "Proved with the conditions in the statement; C39_ghost_refuted and C39_no_side_refuted are the two failures."
  },
  {
   "property": "C40",
   "status": "proved",
   "theorems": [
    "C40_window",
    "C40_short_table_refuted",
    "C40_order_zero_refuted"
   ],
   "note": "Negative result proved generally: with at most 'order' entries both functions access the table out of bounds, and order 0 leaves the index list empty so value() is undefined. begin()-1 (line 63) is treated as index arithmetic."
  },
  {
   "property": "C41",
   "status": "proved",
   "theorems": [
    "C41_exact",
    "C41_coefficients",
    "C41_table_points"
   ],
   "note": ""
  },
  {
   "property": "C42",
   "status": "proved",
   "theorems": [
    "C42_conserves",
    "C42_deposit",
    "C42_interpolate",
    "C42_weights",
    "C42_constants",
    "C42_construct",
    "C42_construct_decreasing_refuted",
    "C42_ghost_cell_refuted",
    "C42_origin_refuted",
    "C42_outside_refuted"
   ],
   "note": "Exact rationals for doubles; the release build (debug range checks left out). Limits shown by C42_ghost_cell_refuted, C42_origin_refuted, C42_outside_refuted, C42_construct_decreasing_refuted."
  },
  {
   "property": "C43",
   "status": "proved",
   "theorems": [
    "C43_coords",
    "C43_reduced",
    "C43_reduced_refuted",
    "C43_neighbours",
    "C43_stagger",
    "C43_readonly"
   ],
   "note": "Exact rationals for doubles. C43_reduced/C43_reduced_refuted: fields with reduced valid ghosts get coordinates shifted by the removed layers."
  },
  {
   "property": "C44",
   "status": "proved",
   "theorems": [
    "C44_exact",
    "C44_absolute",
    "C44_relative",
    "C44_default_tolerance",
    "C44_windows_differ",
    "C44_scalar",
    "C44_ulp",
    "C44_relative_symmetry_refuted",
    "C44_negative_error_refuted"
   ],
   "note": "Values are rationals (ulp comparison: integers numbering the doubles in order). C44_relative_symmetry_refuted and C44_negative_error_refuted are the two surprises."
  },
  {
   "property": "C45",
   "status": "proved",
   "theorems": [
    "C45_positions",
    "C45_gather",
    "C45_scatter",
    "C45_scatter_gather",
    "C45_gather_scatter",
    "C45_too_few_positions",
    "C45_view_refuted"
   ],
   "note": "C45_view_refuted: on a windowed view positions and elements disagree."
  },
  {
   "property": "C46",
   "status": "proved",
   "theorems": [
    "C46_returned",
    "C46_sleepers",
    "C46_rest",
    "C46_terminates",
    "C46_threshold_refuted",
    "C46_clear_refuted",
    "C46_terminated_wait_refuted"
   ],
   "note": "For positive thresholds and for clear() with no active worker the wake-up can be lost (refutation theorems)."
  },
  {
   "property": "C47",
   "status": "proved",
   "theorems": [
    "C47_in_turn",
    "C47_simultaneous_refuted"
   ],
   "note": "C47_simultaneous_refuted shows the difference from a simultaneous update."
  },
  {
   "property": "C48",
   "status": "proved",
   "theorems": [
    "C48_single",
    "C48_list"
   ],
   "note": ""
  },
  {
   "property": "C49",
   "status": "proved",
   "theorems": [
    "C49_read",
    "C49_write",
    "C49_readonly",
    "C49_flat",
    "C49_debug",
    "C49_debug_origin",
    "C49_debug_view_refuted"
   ],
   "note": "C49_debug_view_refuted: the debug assertions reject valid elements of views."
  },
  {
   "property": "C50",
   "status": "proved",
   "theorems": [
    "C50_copy",
    "C50_copies_block",
    "C50_refused",
    "C50_reset",
    "C50_reset_null",
    "C50_reset_readonly"
   ],
   "note": ""
  },
  {
   "property": "C51",
   "status": "proved",
   "theorems": [
    "C51_refused",
    "C51_walk",
    "C51_inside"
   ],
   "note": ""
  },
  {
   "property": "C52",
   "status": "proved",
   "theorems": [
    "C52_replies",
    "C52_latest",
    "C52_available",
    "C52_locked",
    "C52_unlocked",
    "C52_unlocked_refuted",
    "C52_frees",
    "C52_all_freed",
    "C52_copy_stale_refuted",
    "C52_copy_dangling_refuted",
    "C52_device_refuted",
    "C52_has_consumers_refuted"
   ],
   "note": ""
  },
  {
   "property": "C53",
   "status": "proved",
   "theorems": [
    "C53_result",
    "C53_agree",
    "C53_once",
    "C53_ready",
    "C53_cancel_before_return",
    "C53_cancel_before_start",
    "C53_is_cancelled",
    "C53_initialised",
    "C53_all_return",
    "C53_delivered",
    "C53_quiet",
    "C53_cancel_releases_refuted",
    "C53_throw_releases_refuted",
    "C53_cancel_value_refuted",
    "C53_cancel_invoke_refuted",
    "C53_timed_refuted"
   ],
   "note": ""
  },
  {
   "property": "C54",
   "status": "proved",
   "theorems": [
    "C54_same_as_built",
    "C54_same_type",
    "C54_boundary_points",
    "C54_own_block",
    "C54_one_cell_refuted",
    "C54_reduced_refuted"
   ],
   "note": ""
  },
  {
   "property": "C55",
   "status": "proved",
   "theorems": [
    "C55_linear",
    "C55_sin",
    "C55_gaussian",
    "C55_hypertan",
    "C55_gaussian_dx_refuted",
    "C55_hypertan_dx_refuted"
   ],
   "note": ""
  },
  {
   "property": "C56",
   "status": "proved",
   "theorems": [
    "C56_hard_result",
    "C56_hard_counts",
    "C56_hard_exact",
    "C56_hard_at_most",
    "C56_soft",
    "C56_starved_refuted",
    "C56_throw_refuted",
    "C56_soft_above_refuted",
    "C56_soft_late_refuted"
   ],
   "note": ""
  },
  {
   "property": "C57",
   "status": "proved",
   "theorems": [
    "C57_gpu_assign",
    "C57_gpu_interior",
    "C57_gpu_columns",
    "C57_gpu_reduced_refuted",
    "C57_gpu_single_refuted",
    "C57_gpu_readonly",
    "C57_gpu_device",
    "C57_gpu_device_throws"
   ],
   "note": "Kernel threads as programs over the heap, all interleavings. C57_gpu_reduced_refuted and C57_gpu_single_refuted: limits, excluded from the statement."
  },
  {
   "property": "C58",
   "status": "proved",
   "theorems": [
    "C58_assign",
    "C58_interior_assign",
    "C58_mask_steps",
    "C58_mask_steps_refuted",
    "C58_windows",
    "C58_iterators",
    "C58_differences",
    "C58_traversal",
    "C58_bytes",
    "C58_masks",
    "C58_sharp",
    "C58_large_refuted"
   ],
   "note": "The bound is exact (C58_sharp); C58_large_refuted is a concrete larger window."
  },
  {
   "property": "C59",
   "status": "proved",
   "theorems": [
    "C59_shared_pool",
    "C59_as_if_in_turn",
    "C59_comes_to_rest",
    "C59_returns",
    "C59_nested_refuted"
   ],
   "note": "C59_nested_refuted: why the number of threads on the pool is limited in the statement."
  },
  {
   "property": "C60",
   "status": "proved",
   "theorems": [
    "C60_exclusive",
    "C60_as_if_in_turn",
    "C60_count",
    "C60_all_returned",
    "C60_handles",
    "C60_balanced",
    "C60_progress",
    "C60_ends",
    "C60_ordinary_fields_refuted",
    "C60_shared_handle_refuted"
   ],
   "note": "C60_ordinary_fields_refuted and C60_shared_handle_refuted: why the statement is limited to scratch fields whose handles stay in one thread."
  },
  {
   "property": "C61",
   "status": "proved",
   "theorems": [
    "C61_bounds",
    "C61_constant",
    "C61_nearest",
    "C61_four_cells",
    "C61_derivative_constant",
    "C61_derivative_sign",
    "C61_derivative_error",
    "C61_filter_error",
    "C61_nan",
    "C61_in_memory",
    "C61_reads_valid",
    "C61_field_bounds",
    "C61_tiny_refuted",
    "C61_filter_constant_refuted",
    "C61_overflow_refuted",
    "C61_fused_refuted"
   ],
   "note": "IEEE binary64 from Flocq. The *_refuted theorems show why the statement excludes tiny values, overflow, the box filter and fused operations."
  },
  {
   "property": "C62",
   "status": "proved",
   "theorems": [
    "C62_sum_error",
    "C62_sum_exact",
    "C62_sum_nan",
    "C62_max_min",
    "C62_max_min_nan",
    "C62_norm_error",
    "C62_norm_nan",
    "C62_max_nan_refuted",
    "C62_max_number_refuted",
    "C62_norm_underflow_refuted",
    "C62_norm_overflow_refuted"
   ],
   "note": "IEEE binary64 from Flocq; std::pow(x, 2.0) is a parameter assumed accurate to one unit in the last place (met by x*x). The *_refuted theorems show why NaN positions and magnitudes matter."
  },
  {
   "property": "C63",
   "status": "proved",
   "theorems": [
    "C63_done",
    "C63_all_run",
    "C63_no_workers_stay",
    "C63_no_start",
    "C63_returns",
    "C63_hang_refuted",
    "C63_late_task_refuted"
   ],
   "note": "Joining threads that have ended is not a step of the model. The *_refuted theorems show why termination needs a worker and why tasks scheduled during the destruction are excluded."
  },
  {
   "property": "C64",
   "status": "proved",
   "theorems": [
    "C64_assign",
    "C64_interior_assigned",
    "C64_parallel",
    "C64_fold",
    "C64_storage",
    "C64_interior_refuted",
    "C64_interior_outside_refuted",
    "C64_out_of_plane_refuted"
   ],
   "note": "Fields with extra cells in a one-cell direction, and expressions mixing different declared ghost counts there, are excluded."
  },
  {
   "property": "C65",
   "status": "proved",
   "theorems": [
    "C65_exact",
    "C65_double",
    "C65_energy",
    "C65_insulated",
    "C65_insulated64_refuted",
    "C65_hot_to_cold",
    "C65_hot_to_cold64",
    "C65_error64",
    "C65_insulated_error64",
    "C65_quadratic"
   ],
   "note": "The coordinate fields and the initial temperature of main.cpp are left out: the theorems hold for any temperature, conductivity and heat capacity. Division by zero is excluded where the exact theorems need it."
  },
  {
   "property": "C66",
   "status": "proved",
   "theorems": [
    "C66_exact",
    "C66_absolute",
    "C66_relative",
    "C66_symmetric",
    "C66_reflexive",
    "C66_scalar",
    "C66_default",
    "C66_default_exact",
    "C66_nan_tolerance",
    "C66_nan_refuted",
    "C66_infinite_refuted",
    "C66_overflow_refuted",
    "C66_rounding_refuted"
   ],
   "note": "The ulp comparisons are C67. Fields on the GPU are copied first by the code; only fields in local memory are modelled."
  },
  {
   "property": "C67",
   "status": "proved",
   "theorems": [
    "C67_compare",
    "C67_different_windows",
    "C67_scalar",
    "C67_verdict",
    "C67_distance",
    "C67_symmetric",
    "C67_zero",
    "C67_one",
    "C67_reflexive_refuted",
    "C67_order_decides"
   ],
   "note": "boost::math::float_distance is modelled by its documentation: the signed number of doubles, std::domain_error for arguments that are not finite. Only fields in local memory are modelled."
  },
  {
   "property": "C68",
   "status": "proved",
   "theorems": [
    "C68_never_fails",
    "C68_allocated",
    "C68_observe",
    "C68_observe_null",
    "C68_device",
    "C68_raw_device_refuted",
    "C68_raw_device",
    "C68_same",
    "C68_left_over",
    "C68_unset_refuted",
    "C68_twice_refuted",
    "C68_no_device"
   ],
   "note": "One thread; block contents, sizes and running out of device memory are not modelled. cudaFree of an address that is not allocated is an error (exception), whatever the current device (unified addressing)."
  },
  {
   "property": "C69",
   "status": "proved",
   "theorems": [
    "C69_deposit",
    "C69_collect",
    "C69_safe_deposit",
    "C69_safe_collect",
    "C69_inside_reached",
    "C69_construct",
    "C69_accepted",
    "C69_exact_conservation_refuted",
    "C69_tiny_refuted",
    "C69_negative_refuted",
    "C69_nan_refuted"
   ],
   "note": "Without the debug-build range check. Error bounds for magnitudes between 2^-400 and 2^400; int is 32 bits."
  },
  {
   "property": "C70",
   "status": "proved",
   "theorems": [
    "C70_positions",
    "C70_values",
    "C70_order",
    "C70_same_place",
    "C70_origin",
    "C70_mesh",
    "C70_end_refuted",
    "C70_even_refuted",
    "C70_no_points",
    "C70_tiny_refuted"
   ],
   "note": "Release build. Fields with all ghost cells valid (for others see C43)."
  },
  {
   "property": "C71",
   "status": "proved",
   "theorems": [
    "C71_window",
    "C71_weights",
    "C71_value",
    "C71_derivative",
    "C71_polynomial",
    "C71_slope",
    "C71_table_points",
    "C71_short_table_refuted",
    "C71_order_zero_refuted",
    "C71_constant_refuted",
    "C71_spread_refuted"
   ],
   "note": "Bounds for distances and values of ordinary magnitude (exact conditions in Lag64S)."
  },
  {
   "property": "C72",
   "status": "proved",
   "theorems": [
    "C72_nebo",
    "C72_field",
    "C72_scalar",
    "C72_get_coef",
    "C72_op",
    "C72_op_side",
    "C72_list",
    "C72_error",
    "C72_interpolant",
    "C72_interpolant_exact",
    "C72_zero_flux",
    "C72_registered",
    "C72_zero_flux_refuted",
    "C72_interpolant_refuted",
    "C72_zero_coefficient_refuted"
   ],
   "note": "Bounds for values 0 or between 2^-200 and 2^200."
  },
  {
   "property": "C73",
   "status": "proved",
   "theorems": [
    "C73_all",
    "C73_interior",
    "C73_throws",
    "C73_roundtrip_refuted",
    "C73_empty_refuted"
   ],
   "note": "File system and the library's rounding of the last digit are taken as given."
  },
  {
   "property": "C74",
   "status": "proved",
   "theorems": [
    "C74_histories",
    "C74_breaks",
    "C74_count",
    "C74_goes_on",
    "C74_empty"
   ],
   "note": "Interruption of threads and clocks that are set back are not modelled."
  },
  {
   "property": "C75",
   "status": "proved",
   "theorems": [
    "C75_linear",
    "C75_sin",
    "C75_gaussian",
    "C75_gaussian_d2x",
    "C75_hypertan"
   ],
   "note": "Magnitudes are limited to zero or 2^-200..2^200; the C library is a parameter with a stated accuracy. The bound for d2x of GaussianFunction is for coordinates within 2^200 standard deviations of the mean."
  },
  {
   "property": "C76",
   "status": "proved",
   "theorems": [
    "C76_safe",
    "C76_sorted",
    "C76_ends",
    "C76_finite",
    "C76_as_written_refuted"
   ],
   "note": "The statement covers the program with any number of threads given to the constructor and to resize; as written (0 and 5) it hangs, which is the refuted theorem. std::inplace_merge is taken from its documentation."
  },
  {
   "property": "C77",
   "status": "proved",
   "theorems": [
    "C77_formula",
    "C77_logical",
    "C77_assign",
    "C77_interior_assign",
    "C77_single",
    "C77_overloads",
    "C77_max_min_nan",
    "C77_combine_refuted"
   ],
   "note": ""
  },
  {
   "property": "C78",
   "status": "proved",
   "theorems": [
    "C78_replies",
    "C78_bits",
    "C78_bits_on_cpu",
    "C78_returned",
    "C78_copy_outlives_refuted",
    "C78_gpu_destroy_refuted",
    "C78_gpu_block_on_cpu_refuted",
    "C78_removed_under_copy_refuted",
    "C78_throw_leaks_refuted",
    "C78_has_consumers_refuted"
   ],
   "note": "The statement names the rules for users (legal_history) under which it holds; the four refuted theorems show what happens without each rule, and that has_consumers misses GPUs other than 0. GPU blocks of the pool are all on GPU 0 (C52); peer access between GPUs is assumed to work."
  },
  {
   "property": "C79",
   "status": "proved",
   "theorems": [
    "C79_true",
    "C79_false",
    "C79_returns",
    "C79_at_once",
    "C79_sleeper",
    "C79_done_refuted",
    "C79_race_refuted"
   ],
   "note": "The statement says what the two answers mean; that false does not mean \"not done\" is C79_done_refuted and C79_race_refuted. timed_wait of Boost is taken from its documentation: false only at or after the timestamp, wake-ups without notification allowed, a time-out may also hit a thread just woken."
  },
  {
   "property": "C80",
   "status": "proved",
   "theorems": [
    "C80_replies",
    "C80_put",
    "C80_put_rest",
    "C80_assign",
    "C80_new",
    "C80_new_zero",
    "C80_new_part_refuted",
    "C80_new_values_refuted",
    "C80_null_begin_refuted"
   ],
   "note": "Release build; fields that share memory (shallow copies) are excluded, C52_copy_stale_refuted shows why. CUDA transfers are taken as exact copies of the whole block. The *_refuted theorems are the limits named in the statement."
  },
  {
   "property": "C81",
   "status": "proved",
   "theorems": [
    "C81_answers",
    "C81_defined",
    "C81_read_back",
    "C81_released",
    "C81_statistics_one_device",
    "C81_statistics_current",
    "C81_statistics_sum",
    "C81_statistics_refuted"
   ],
   "note": "The CUDA runtime is modelled by its documentation: current device per thread, blocks of bytes, cudaMemGetInfo for the current device; streams and asynchronous errors are left out. C81_statistics_refuted shows the wrong figures with several devices."
  },
  {
   "property": "C82",
   "status": "proved",
   "theorems": [
    "C82_get",
    "C82_no_gpu",
    "C82_put",
    "C82_blocks",
    "C82_again",
    "C82_counts",
    "C82_active_refuted",
    "C82_blocked",
    "C82_blocked_refuted",
    "C82_freed",
    "C82_pinned_refuted"
   ],
   "note": "The system is any function that answers a request with a fresh block or a failure; allocation of the map nodes and queues themselves is taken to succeed. The three _refuted theorems show the limits."
  },
  {
   "property": "C83",
   "status": "proved",
   "theorems": [
    "C83_program",
    "C83_like_constants",
    "C83_element",
    "C83_check",
    "C83_wide_refuted",
    "C83_ghosts_refuted",
    "C83_view_refuted"
   ],
   "note": "Sequential assignment; the value is kept in a double on the way (NeboRhs.h:490-500), which is exact for the element types float, double and unsigned int and is not modelled. The three _refuted theorems show what the check lets through."
  },
  {
   "property": "C84",
   "status": "proved",
   "theorems": [
    "C84_safe",
    "C84_once",
    "C84_returned",
    "C84_freed",
    "C84_workers",
    "C84_reclaimed",
    "C84_goes_on",
    "C84_ends",
    "C84_leak_refuted",
    "C84_self"
   ],
   "note": "Shared pointers are modelled as explicit counts. Each call on the core is one step, except a waiting shutdown(), which is two, and a worker's death, which is its end with a new worker unless the pool is shutting down. A handle destroyed by a task of the same pool is covered by C84_self; the other theorems take it to be destroyed by another thread. C84_reclaimed, C84_goes_on and C84_ends are about workers that end without an exception. C84_leak_refuted shows the leak of the policy that does not wait."
  },
  {
   "property": "C85",
   "status": "proved",
   "theorems": [
    "C85_program",
    "C85_unsigned",
    "C85_unsigned_div",
    "C85_unsigned_div_refuted",
    "C85_sum",
    "C85_sum_refuted",
    "C85_equal",
    "C85_min"
   ],
   "note": "int has 32 bits; conversion of an out-of-range unsigned number to int is modulo 2^32, as compilers define it. Vectors of other element types and conversions between them are not modelled. The two _refuted theorems show the limits."
  }
 ]
}