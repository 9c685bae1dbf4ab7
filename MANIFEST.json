{
 "claims": [
  {
   "property": "C01",
   "status": "proved",
   "theorems": [
    "C01_time_plus_duration_exact_or_throws",
    "C01_time_minus_duration_exact_or_throws",
    "C01_representable_sum_rejected_refuted"
   ],
   "note": "Also shown: representable sums of 2^31 s or more are refused (_refuted)."
  },
  {
   "property": "C02",
   "status": "proved",
   "theorems": [
    "C02_time_difference_exact",
    "C02_time_difference_undone_by_addition",
    "C02_time_difference_overflow_refuted",
    "C02_time_difference_wrong_value_refuted"
   ],
   "note": "Beyond 2^31 s: overflow and wrong values shown by the two _refuted theorems."
  },
  {
   "property": "C03",
   "status": "proved",
   "theorems": [
    "C03_time_comparisons_order_instants",
    "C03_duration_comparisons_order_spans_partial",
    "C03_duration_comparisons_refuted",
    "C03_reachable_values_are_nearly_canonical"
   ],
   "note": "Duration part under the stated normal-form condition; the exception is exhibited by C03_duration_comparisons_refuted and bounded by C03_reachable_values_are_nearly_canonical."
  },
  {
   "property": "C04",
   "status": "proved",
   "theorems": [
    "C04_time_nanoseconds_roundtrip",
    "C04_time_from_nanoseconds",
    "C04_time_to_nanoseconds_inverse",
    "C04_duration_nanoseconds_roundtrip",
    "C04_duration_from_nanoseconds"
   ],
   "note": ""
  },
  {
   "property": "C05",
   "status": "proved",
   "theorems": [
    "C05_duration_sum_exact",
    "C05_duration_difference_exact",
    "C05_duration_negation_exact",
    "C05_duration_history_exact",
    "C05_time_history_exact",
    "C05_negate_DURATION_MIN_refuted"
   ],
   "note": "Negating the minimum Duration is signed overflow (_refuted)."
  },
  {
   "property": "C06",
   "status": "proved",
   "theorems": [
    "C06_printed_time_denotes_value",
    "C06_printed_nonnegative_duration_denotes_value_partial",
    "C06_printed_negative_duration_refuted",
    "C06_printed_carry_duration_refuted"
   ],
   "note": "The wrong renderings are exhibited by the _refuted theorems."
  },
  {
   "property": "C07",
   "status": "proved",
   "theorems": [
    "C07_integers_roundtrip",
    "C07_smallest_integer_refuted",
    "C07_macro_mismatch_refuted"
   ],
   "note": "Integers and flag byte only; the two failing configurations are the _refuted theorems."
  },
  {
   "property": "C08",
   "status": "proved",
   "theorems": [
    "C08_written_format",
    "C08_bytes_host_independent",
    "C08_default_flags_not_portable_refuted"
   ],
   "note": "Default flags are host dependent (_refuted)."
  },
  {
   "property": "C09",
   "status": "proved",
   "theorems": [
    "C09_oversized_integer_throws",
    "C09_truncated_integer_throws",
    "C09_reader_is_total",
    "C09_length_byte_0x80_refuted",
    "C09_negated_magnitude_refuted",
    "C09_value_outside_type_accepted_refuted"
   ],
   "note": "Both undefined inputs and the wrapped value are exhibited (_refuted)."
  },
  {
   "property": "C10",
   "status": "proved",
   "theorems": [
    "C10_started_once_in_order",
    "C10_started_finish_once",
    "C10_empty_means_all_started"
   ],
   "note": ""
  },
  {
   "property": "C11",
   "status": "proved",
   "theorems": [
    "C11_wait_returns_when_all_done",
    "C11_threads_come_to_rest",
    "C11_unstopped_queue_finishes",
    "C11_destructor_returns",
    "C11_destructor_waits_for_begun_workers",
    "C11_destroyed_before_worker_begins_refuted",
    "C11_join_returns",
    "C11_join_deadlock_refuted",
    "C11_wait_after_stop_refuted"
   ],
   "note": "The lost wake-up in join(), the destructor race and waiting on a stopped queue are the _refuted theorems."
  },
  {
   "property": "C12",
   "status": "proved",
   "theorems": [
    "C12_lower_convex_hull",
    "C12_backwards_refused"
   ],
   "note": "Exact rational arithmetic."
  },
  {
   "property": "C13",
   "status": "proved",
   "theorems": [
    "C13_corrected_time",
    "C13_queries_defined",
    "C13_stale_segment_refuted"
   ],
   "note": "Exact rational arithmetic; the stale segment index is the _refuted theorem."
  },
  {
   "property": "C14",
   "status": "proved",
   "theorems": [
    "C14_permutation_gathers",
    "C14_wrong_length_throws",
    "C14_out_of_range_never_accepted",
    "C14_no_element_lost",
    "C14_repeated_entry_loops_refuted",
    "C14_repeated_entry_wrong_refuted",
    "C14_loops_means_forever"
   ],
   "note": "Behaviour on repeated entries exhibited by the _refuted theorems."
  },
  {
   "property": "C15",
   "status": "proved",
   "theorems": [
    "C15_linear_index_bijection",
    "C15_constructor_int",
    "C15_constructor_real",
    "C15_get_index_int",
    "C15_get_index_real",
    "C15_centre_in_its_cell_real",
    "C15_centre_in_its_cell_int_nonneg",
    "C15_centre_negative_int_refuted",
    "C15_centre_beyond_maximum_refuted",
    "C15_negative_index_accepted_refuted",
    "C15_iteration_visits_every_cell_once"
   ],
   "note": "Exact arithmetic (no float rounding); the three violations are the _refuted theorems."
  },
  {
   "property": "C16",
   "status": "proved",
   "theorems": [
    "C16_histogram_counts_int",
    "C16_histogram_counts_real",
    "C16_mode_is_largest_bin",
    "C16_median_splits_samples",
    "C16_normalized_sums_to_one",
    "C16_reset_starts_over"
   ],
   "note": "Exact arithmetic; mode and median stated for real coordinates."
  },
  {
   "property": "C17",
   "status": "proved",
   "theorems": [
    "C17_membership",
    "C17_well_formed",
    "C17_enumeration",
    "C17_accepts",
    "C17_save_restore",
    "C17_addition_order",
    "C17_group_dim"
   ],
   "note": "Batch model of OptimizationProblem.cpp; all histories of its public calls."
  },
  {
   "property": "C18",
   "status": "proved",
   "theorems": [
    "C18_union",
    "C18_batches_compatible",
    "C18_batches",
    "C18_set_ordering",
    "C18_defined",
    "C18_changed_batch_refuted"
   ],
   "note": "Incremental problem as union of its batches for all histories without rejected adds; the changed-batch hazard is C18_changed_batch_refuted."
  },
  {
   "property": "C19",
   "status": "proved",
   "theorems": [
    "C19_rejected_add",
    "C19_variables_left_refuted",
    "C19_group_left_refuted"
   ],
   "note": "What a rejected add preserves, and refutations for what it leaves behind."
  },
  {
   "property": "C20",
   "status": "proved",
   "theorems": [
    "C20_enumeration",
    "C20_groups"
   ],
   "note": "Enumeration and groups in every reachable state."
  },
  {
   "property": "C21",
   "status": "proved",
   "theorems": [
    "C21_rejected",
    "C21_rejected_again",
    "C21_throw_keeps_batch_refuted",
    "C21_no_group_keeps_batch_refuted",
    "C21_order_refuted"
   ],
   "note": "Estimator model with the optimizer as an oracle; exceptions to the rule are the C21_*_refuted theorems."
  },
  {
   "property": "C22",
   "status": "proved",
   "theorems": [
    "C22_criterion",
    "C22_throws",
    "C22_remove",
    "C22_remove_batch",
    "C22_reoptimize"
   ],
   "note": "Acceptance criterion over binary64 (SpecFloat), all oracle answers."
  },
  {
   "property": "C23",
   "status": "proved",
   "theorems": [
    "C23_reported_costs",
    "C23_cost_never_rises",
    "C23_nan_accepted_refuted",
    "C23_gauss_newton_refuted"
   ],
   "note": "Any arithmetic for the bookkeeping; binary64 (Flocq) for the order of costs. NaN and Gauss-Newton counterexamples as _refuted."
  },
  {
   "property": "C24",
   "status": "proved",
   "theorems": [
    "C24_terminates",
    "C24_counters",
    "C24_throws"
   ],
   "note": "Counters as functions of the log of passes; termination for arbitrary oracles."
  },
  {
   "property": "C25",
   "status": "proved",
   "theorems": [
    "C25_stops_on_convergence",
    "C25_ends_for_a_reason",
    "C25_after_failure_refuted"
   ],
   "note": "Counterexample after a solver failure as _refuted."
  },
  {
   "property": "C26",
   "status": "proved",
   "theorems": [
    "C26_add",
    "C26_add_rejects",
    "C26_add_one",
    "C26_chain",
    "C26_histories",
    "C26_lookup",
    "C26_shared_block_refuted",
    "C26_shared_block_sizes_refuted"
   ],
   "note": "any arithmetic; shared block indices refuted as stated"
  },
  {
   "property": "C27",
   "status": "proved",
   "theorems": [
    "C27_builds",
    "C27_push_pop",
    "C27_push_rejects",
    "C27_clear_refuted",
    "C27_reinit_refuted",
    "C27_missing_jacobian_refuted"
   ],
   "note": "any arithmetic, all write orders and rounds; misuse witnesses are the _refuted theorems named in the statement"
  },
  {
   "property": "C28",
   "status": "proved",
   "theorems": [
    "C28_partition",
    "C28_empty_refuted",
    "C28_many_terms_refuted",
    "C28_cost",
    "C28_exact",
    "C28_throws",
    "C28_race_free",
    "C28_thread_count_refuted",
    "C28_jacobian"
   ],
   "note": "Model ThrModel.v: one step of a schedule is one round of a thread's loop (threads share no locations, C28_race_free, so finer interleavings give nothing new). A thread that throws stops, the others go on, then the call throws. Oracles: each term's evaluateError/getWeightedError. Three known limits are _refuted theorems. The builder's threads do not catch exceptions (std::terminate); that case is not modelled."
  },
  {
   "property": "C29",
   "status": "proved",
   "theorems": [
    "C29_histories",
    "C29_spec_deterministic",
    "C29_remove_variable",
    "C29_repeated_use_refuted",
    "C29_missing_variable_refuted",
    "C29_rejected_term_refuted"
   ],
   "note": "Model ProbModel.v. Lifetimes: a term is alive while the problem or somebody else (oracle kept) holds it; reading a destroyed one is UB. Three known defects are _refuted theorems."
  },
  {
   "property": "C30",
   "status": "proved",
   "theorems": [
    "C30_geman",
    "C30_geman_refuted",
    "C30_cauchy",
    "C30_huber",
    "C30_blake",
    "C30_blake_refuted",
    "C30_none",
    "C30_derivatives",
    "C30_float_refuted"
   ],
   "note": "Model MEstModel.v over exact reals; chi-squared quantile is a parameter. binary64 behaviour only through the computed witnesses of C30_float_refuted. Derivatives use Coquelicot."
  },
  {
   "property": "C31",
   "status": "proved",
   "theorems": [
    "C31_round_trip",
    "C31_merge",
    "C31_truncated_file",
    "C31_large_matrix_refuted",
    "C31_append_refuted",
    "C31_bad_marker_throws"
   ],
   "note": "The three limits are the _refuted theorems."
  },
  {
   "property": "C32",
   "status": "proved",
   "theorems": [
    "C32_last_write",
    "C32_names_checked",
    "C32_names_legal",
    "C32_create_illegal_refuted",
    "C32_one_meaning_refuted",
    "C32_clear_name_refuted",
    "C32_size",
    "C32_size_refuted"
   ],
   "note": "The five surprises are the _refuted theorems."
  },
  {
   "property": "C33",
   "status": "proved",
   "theorems": [
    "C33_replace",
    "C33_replace_same_hangs",
    "C33_replace_reverse",
    "C33_replace_reverse_refuted",
    "C33_leading_pad",
    "C33_substitute"
   ],
   "note": "Hanging and the wrap-around of replace_reverse have their own theorems."
  },
  {
   "property": "C34",
   "status": "proved",
   "theorems": [
    "C34_round_trip",
    "C34_reads_hex",
    "C34_accepts_garbage_refuted",
    "C34_blanks_refuted",
    "C34_order",
    "C34_valid"
   ],
   "note": ""
  },
  {
   "property": "C35",
   "status": "proved",
   "theorems": [
    "C35_qualified",
    "C35_child_keys",
    "C35_absolute_child",
    "C35_set_get",
    "C35_exists_throws",
    "C35_exists_refuted"
   ],
   "note": "The boost property tree itself is modelled as a finite map from paths."
  },
  {
   "property": "C36",
   "status": "proved",
   "theorems": [
    "C36_restore",
    "C36_save_restore",
    "C36_after_clear_refuted"
   ],
   "note": "Restore after save for all histories without clear; refuted after clear."
  },
  {
   "property": "C37",
   "status": "proved",
   "theorems": [
    "C37_marginalized_last"
   ],
   "note": "Ordering invariant of the estimator."
  },
  {
   "property": "C38",
   "status": "proved",
   "theorems": [
    "C38_gauss_newton_fresh",
    "C38_dog_leg_fresh",
    "C38_levenberg_fresh",
    "C38_damping_applied",
    "C38_dense_qr_refuted",
    "C38_zero_gain_refuted",
    "C38_dog_leg_after_failure_refuted",
    "C38_block_cholesky_damping_refuted",
    "C38_dense_qr_undamped_refuted"
   ],
   "note": "Counterexamples for the other solver and policy combinations as _refuted."
  },
  {
   "property": "C39",
   "status": "proved",
   "theorems": [
    "C39_damping_escalates",
    "C39_dog_leg_repeats_refuted"
   ],
   "note": "Over the reals; dog-leg counterexample in binary64 as _refuted."
  },
  {
   "property": "C40",
   "status": "proved",
   "theorems": [
    "C40_step_within_radius",
    "C40_dog_leg_point"
   ],
   "note": "Over the reals."
  },
  {
   "property": "C41",
   "status": "proved",
   "theorems": [
    "C41_slices",
    "C41_inactive_untouched"
   ],
   "note": "Any arithmetic."
  },
  {
   "property": "C42",
   "status": "proved",
   "theorems": [
    "C42_differential"
   ],
   "note": "exact real arithmetic"
  },
  {
   "property": "C43",
   "status": "proved",
   "theorems": [
    "C43_from_dense",
    "C43_access",
    "C43_round_trip",
    "C43_nan_dropped_refuted",
    "C43_stale_diagonal_refuted"
   ],
   "note": "any arithmetic; NaN and stale-flag witnesses as stated"
  },
  {
   "property": "C44",
   "status": "proved",
   "theorems": [
    "C44_right",
    "C44_left",
    "C44_sizes",
    "C44_ignores_diagonal"
   ],
   "note": "exact real arithmetic; size checks in any arithmetic"
  },
  {
   "property": "C45",
   "status": "proved",
   "theorems": [
    "C45_cost",
    "C45_without_mestimator_refuted",
    "C45_no_mestimator",
    "C45_jacobians",
    "C45_gradient",
    "C45_descent_refuted"
   ],
   "note": "Model MEstModel.v (second half) over exact reals; the error vector and Jacobians are inputs. getWeightedError uses the squared error stored by the last evaluateError; the theorems take it right after evaluateError."
  },
  {
   "property": "C46",
   "status": "proved",
   "theorems": [
    "C46_read",
    "C46_dense",
    "C46_write",
    "C46_view_refuted",
    "C46_clear",
    "C46_clone",
    "C46_transpose",
    "C46_transpose_into_refuted",
    "C46_transpose_into_partial",
    "C46_add",
    "C46_product",
    "C46_product_mismatch",
    "C46_product_into",
    "C46_product_into_refuted",
    "C46_product_layout_refuted",
    "C46_scale",
    "C46_vector",
    "C46_vector_transposed",
    "C46_vector_onto",
    "C46_slice",
    "C46_slice_into",
    "C46_slice_empty_refuted",
    "C46_permute",
    "C46_permute_upper",
    "C46_block_structure"
   ],
   "note": "The refuted theorems give the stale-block, accumulation, unchecked-layout, empty-slice and view cases; C46_transpose_into_partial says which blocks of an existing destination are right."
  },
  {
   "property": "C47",
   "status": "proved",
   "theorems": [
    "C47_upper",
    "C47_all",
    "C47_full",
    "C47_dense",
    "C47_dense_tall_refuted",
    "C47_history",
    "C47_grown_refuted",
    "C47_moved_refuted",
    "C47_empty_refuted",
    "C47_ordering",
    "C47_inverse",
    "C47_structure"
   ],
   "note": "The solver libraries are an oracle: only what they are given is modelled, and whether they report success is an input. The block ordering itself (AMD) is any permutation."
  },
  {
   "property": "C48",
   "status": "proved",
   "theorems": [
    "C48_entry",
    "C48_blocks",
    "C48_sparse",
    "C48_solver",
    "C48_large_refuted"
   ],
   "note": "Exact real arithmetic; the factor is CHOLMOD's or CSparse's output, described by its documented contract (L L^T = H(p,p), diagonal first in each column)."
  },
  {
   "property": "C49",
   "status": "proved",
   "theorems": [
    "C49_structure",
    "C49_system",
    "C49_rebuild",
    "C49_semidefinite",
    "C49_minimises",
    "C49_dogleg_length_refuted"
   ],
   "note": "over exact reals; Jacobians and errors of the terms are inputs; the dog-leg length is refuted"
  },
  {
   "property": "C50",
   "status": "proved",
   "theorems": [
    "C50_index",
    "C50_roundtrip_refuted",
    "C50_checkerboard",
    "C50_axes_refuted",
    "C50_circlegrid",
    "C50_aprilgrid",
    "C50_tags",
    "C50_distinct",
    "C50_data_pointer",
    "C50_data_pointer_refuted"
   ],
   "note": "Indices are natural numbers below 2^31; coordinates over the reals."
  },
  {
   "property": "C51",
   "status": "proved",
   "theorems": [
    "C51_history",
    "C51_usable",
    "C51_april",
    "C51_april_stale_refuted",
    "C51_find",
    "C51_filter",
    "C51_stale_pose_refuted",
    "C51_fresh_pose"
   ],
   "note": "Tag detector, subpixel refinement, pose estimate and projection are parameters; identities of detections are assumed non-negative; statistics over the reals."
  },
  {
   "property": "C52",
   "status": "proved",
   "theorems": [
    "C52_group",
    "C52_homomorphism",
    "C52_roundtrip"
   ],
   "note": "Doubles are modelled by the reals; the debug-only unit-length assertion is a precondition."
  },
  {
   "property": "C53",
   "status": "proved",
   "theorems": [
    "C53_exponential",
    "C53_small_unit_refuted",
    "C53_small_bound",
    "C53_log",
    "C53_log_small_refuted",
    "C53_log_small_bound",
    "C53_matrix",
    "C53_half_turn_refuted",
    "C53_negative_angle_refuted",
    "C53_slerp"
   ],
   "note": "Doubles are modelled by the reals; NaN results are a separate outcome. The deviations listed in the statement are proved as refutations with bounds."
  },
  {
   "property": "C54",
   "status": "proved",
   "theorems": [
    "C54_angular_velocity",
    "C54_update_jacobian",
    "C54_exp_jacobian",
    "C54_small_angles",
    "C54_log_jacobian"
   ],
   "note": "Derivatives over the reals with Coquelicot; the series branches below the angle 2^-13 are covered only for the update at zero."
  },
  {
   "property": "C55",
   "status": "proved",
   "theorems": [
    "C55_euler_rotations",
    "C55_euler_roundtrip",
    "C55_gimbal_refuted",
    "C55_vectors",
    "C55_half_turn_refuted",
    "C55_angle_mod"
   ],
   "note": "Over the reals. Gimbal lock and half turns are refuted with witnesses."
  },
  {
   "property": "C56",
   "status": "proved",
   "theorems": [
    "C56_rates",
    "C56_jacobians",
    "C56_rotation_vector_defined",
    "C56_zero_vector_refuted",
    "C56_inverse_S"
   ],
   "note": "Over the reals; division by zero of the Jacobian at the zero rotation vector is refuted with a witness."
  },
  {
   "property": "C57",
   "status": "proved",
   "theorems": [
    "C57_group",
    "C57_points",
    "C57_jacobians",
    "C57_adjoint",
    "C57_uncertain",
    "C57_euler",
    "C57_interpolation"
   ],
   "note": "Real arithmetic; interpolation of coinciding times depends on argument order (C57_ex_same_time), and its end point is only reached when the interval is at least 1e-14 long."
  },
  {
   "property": "C58",
   "status": "proved",
   "theorems": [
    "C58_arithmetic",
    "C58_jacobians",
    "C58_covariances",
    "C58_euclidean_covariances",
    "C58_difference_refuted"
   ],
   "note": "Violation: operator- of uncertain points uses toHomogeneousPlus instead of the derivative of the difference, and the mixed operators leave the covariance unscaled (C58_difference_refuted)."
  },
  {
   "property": "C59",
   "status": "proved",
   "theorems": [
    "C59_distortion_jacobians",
    "C59_parameter_jacobians",
    "C59_radtan_undistort",
    "C59_radtan_undistort_refuted",
    "C59_equidistant_undistort",
    "C59_equidistant_refuted",
    "C59_fov_undistort",
    "C59_fov_refuted",
    "C59_parameters"
   ],
   "note": "Jacobians, parameter Jacobians, undistortion guarantees and their violations (C59_..._refuted) are all proved over the reals."
  },
  {
   "property": "C60",
   "status": "proved",
   "theorems": [
    "C60_pinhole_image",
    "C60_pinhole_point_jacobian",
    "C60_pinhole_round_trip",
    "C60_pinhole_parameter_jacobians",
    "C60_pinhole_pixel_jacobian",
    "C60_pinhole_pixel_jacobian_refuted",
    "C60_pinhole_homogeneous_refuted",
    "C60_pinhole_parameters",
    "C60_pinhole_resize",
    "C60_pinhole_resize_refuted"
   ],
   "note": "All parts proved for an arbitrary distortion; the three violations are C60_pinhole_pixel_jacobian_refuted, C60_pinhole_homogeneous_refuted, C60_pinhole_resize_refuted. Random point generation and border rays are not modelled."
  },
  {
   "property": "C61",
   "status": "proved",
   "theorems": [
    "C61_omni_image",
    "C61_omni_point_jacobian",
    "C61_omni_round_trip",
    "C61_omni_boundary_refuted",
    "C61_omni_pixel_jacobian",
    "C61_omni_parameter_jacobians",
    "C61_omni_parameters",
    "C61_omni_random_keypoint",
    "C61_omni_random_keypoint_refuted"
   ],
   "note": "All parts proved over the reals; violations are C61_omni_boundary_refuted and C61_omni_random_keypoint_refuted. initializeIntrinsics is not part of this property."
  },
  {
   "property": "C62",
   "status": "proved",
   "theorems": [
    "C62_eucm_image",
    "C62_eucm_point_jacobian",
    "C62_eucm_round_trip",
    "C62_eucm_boundary_refuted",
    "C62_eucm_pixel_jacobian",
    "C62_eucm_intrinsics_jacobian",
    "C62_eucm_intrinsics_jacobian_refuted",
    "C62_eucm_parameters",
    "C62_eucm_initialisation",
    "C62_eucm_random_keypoint",
    "C62_eucm_random_keypoint_refuted"
   ],
   "note": "All parts proved over the reals; violations are C62_eucm_intrinsics_jacobian_refuted, C62_eucm_boundary_refuted and C62_eucm_random_keypoint_refuted. Of initializeIntrinsics only the conversion from the omnidirectional camera is modelled."
  },
  {
   "property": "C63",
   "status": "proved",
   "theorems": [
    "C63_ds_image",
    "C63_ds_image_refuted",
    "C63_ds_point_jacobian",
    "C63_ds_round_trip",
    "C63_ds_lift_refuted",
    "C63_ds_pixel_jacobian",
    "C63_ds_intrinsics_jacobian",
    "C63_ds_parameters",
    "C63_ds_special_cases",
    "C63_ds_random_keypoint"
   ],
   "note": "All parts proved over the reals; violations are C63_ds_image_refuted and C63_ds_lift_refuted. Of initializeIntrinsics only the conversion from the omnidirectional camera is modelled."
  },
  {
   "property": "C64",
   "status": "proved",
   "theorems": [
    "C64_set_knots",
    "C64_value",
    "C64_value_at_end",
    "C64_hull",
    "C64_local",
    "C64_range",
    "C64_local_basis",
    "C64_unsorted_knots_accepted_refuted",
    "C64_shorter_knots_refuted",
    "C64_empty_last_segment_refuted",
    "C64_bi_vector_refuted"
   ],
   "note": "Real arithmetic. Induction over the order relates the matrix recursion to the Cox-de Boor recursion; refuted theorems give the four violations."
  },
  {
   "property": "C65",
   "status": "proved",
   "theorems": [
    "C65_total",
    "C65_derivative",
    "C65_smooth",
    "C65_high_order",
    "C65_jacobian"
   ],
   "note": "Real arithmetic. Continuity order is proved through joins of the local basis polynomials at the knots."
  },
  {
   "property": "C66",
   "status": "proved",
   "theorems": [
    "C66_integral",
    "C66_curve",
    "C66_curve_diag",
    "C66_segment",
    "C66_penalty"
   ],
   "note": "Real arithmetic, Riemann integral of Coquelicot. The sparse variants of the curve integral are not modelled."
  },
  {
   "property": "C67",
   "status": "proved",
   "theorems": [
    "C67_fit",
    "C67_init_spline3",
    "C67_sparse_solver",
    "C67_sparse_knots",
    "C67_rejects"
   ],
   "note": "Real arithmetic; LDLT and Cholmod are oracles with a stated contract; the sparse block assembly is modelled by its dense meaning."
  },
  {
   "property": "C68",
   "status": "proved",
   "theorems": [
    "C68_constant",
    "C68_constant_rejects",
    "C68_local_coefs",
    "C68_local_rejects",
    "C68_add",
    "C68_add_rejects",
    "C68_add_keeps",
    "C68_add_changes_refuted",
    "C68_remove_even",
    "C68_remove_refuted"
   ],
   "note": "Real arithmetic; householderQr().solve is an oracle that solves non-singular systems, and non-singularity of the 2 x dim system is proved. Both violations are shown by computed witnesses."
  },
  {
   "property": "C69",
   "status": "proved",
   "theorems": [
    "C69_kinds",
    "C69_pose",
    "C69_pose_jacobians",
    "C69_velocities",
    "C69_rate_jacobians",
    "C69_world_sign",
    "C69_roundtrip",
    "C69_add_pose",
    "C69_world_velocity_refuted",
    "C69_angular_acceleration_refuted"
   ],
   "note": "C69_world_velocity_refuted: angularVelocity = -S pdot but angularVelocityAndJacobian = +S pdot. C69_angular_acceleration_refuted: the terms from the change of S and C are missing. Jacobian theorems hold for the returned values."
  },
  {
   "property": "C70",
   "status": "proved",
   "theorems": [
    "C70_rotation",
    "C70_euclidean",
    "C70_transformation",
    "C70_homogeneous",
    "C70_scalar",
    "C70_parameters",
    "C70_error_terms",
    "C70_design_variables",
    "C70_direction",
    "C70_matrix",
    "C70_quaternion_adapter",
    "C70_stale_refuted",
    "C70_matrix_refuted"
   ],
   "note": "Mutual induction over the four kinds of trees. Charts of the five rotation parametrisations are proved. Two violations are refuted with witnesses."
  },
  {
   "property": "C71",
   "status": "proved",
   "theorems": [
    "C71_history",
    "C71_undo",
    "C71_rotation_history",
    "C71_rotation_step",
    "C71_set_refuted",
    "C71_mapped_write_refuted",
    "C71_homogeneous",
    "C71_homogeneous_assign_refuted",
    "C71_vector_difference",
    "C71_point_difference",
    "C71_rotation_difference",
    "C71_difference_jacobian",
    "C71_jacobian_at_reference",
    "C71_mapped_difference_refuted",
    "C71_generic_vector",
    "C71_generic_vector_refuted"
   ],
   "note": "Violations stated as C71_set_refuted, C71_mapped_write_refuted, C71_homogeneous_assign_refuted, C71_mapped_difference_refuted, C71_jacobian_at_reference (last three clauses), C71_generic_vector_refuted. Real arithmetic."
  },
  {
   "property": "C72",
   "status": "proved",
   "theorems": [
    "C72_variables",
    "C72_update",
    "C72_segments",
    "C72_make",
    "C72_pose_nodes",
    "C72_rate_nodes",
    "C72_vector_nodes",
    "C72_kept",
    "C72_kept_add",
    "C72_kept_remove",
    "C72_segments_forget",
    "C72_difference_refuted",
    "C72_acceleration_body_refuted"
   ],
   "note": "Violations stated in C72_kept_add (second part), C72_kept_remove (second part), C72_segments_forget, C72_difference_refuted, C72_acceleration_body_refuted. The time-offset expression is not part of this property. Real arithmetic."
  },
  {
   "property": "C73",
   "status": "proved",
   "theorems": [
    "C73_make",
    "C73_end_refuted",
    "C73_jacobian",
    "C73_plain_refuted",
    "C73_remove_refuted"
   ],
   "note": "Violations stated in C73_jacobian (last part), C73_plain_refuted, C73_end_refuted, C73_remove_refuted. The time expression itself is any expression with value u and rate td. Real arithmetic."
  },
  {
   "property": "C74",
   "status": "proved",
   "theorems": [
    "C74_accepts",
    "C74_rejects",
    "C74_restores",
    "C74_marginal",
    "C74_covariance",
    "C74_covariance_refuted",
    "C74_top",
    "C74_prior",
    "C74_throw_refuted",
    "C74_foreign_refuted",
    "C74_scaling_refuted",
    "C74_rank_refuted"
   ],
   "note": "Violations stated in C74_covariance_refuted, C74_throw_refuted, C74_foreign_refuted, C74_scaling_refuted and C74_rank_refuted. Householder QR and the LU inverse are parameters with a correctness hypothesis, shown satisfiable. Real arithmetic."
  },
  {
   "property": "C75",
   "status": "proved",
   "theorems": [
    "C75_distance",
    "C75_rotate",
    "C75_read",
    "C75_nearest",
    "C75_corrects",
    "C75_sound",
    "C75_families",
    "C75_orientation_refuted"
   ],
   "note": "Violations stated in C75_orientation_refuted and C75_rotate (last part). The table checks are computations on the constants of the headers (Tag36h9 with 5329 codes not checked)."
  },
  {
   "property": "C76",
   "status": "proved",
   "theorems": [
    "C76_corners",
    "C76_start",
    "C76_tag"
   ],
   "note": "cv::findHomography is a parameter, assumed to take the corners to the quadrilateral in C76_corners and C76_tag; the gray model threshold is a parameter telling whether a position is bright; reals for floats."
  },
  {
   "property": "C77",
   "status": "proved",
   "theorems": [
    "C77_kept",
    "C77_one",
    "C77_duplicate_refuted"
   ],
   "note": "The general claim fails: C77_duplicate_refuted computes a list of three detections for which the result contains one of them twice; GridCalibrationTargetAprilgrid::computeObservation ends the program when it sees one id twice."
  },
  {
   "property": "C78",
   "status": "proved",
   "theorems": [
    "C78_sets",
    "C78_stable",
    "C78_outside"
   ],
   "note": "Ids are naturals; recursion depth is bounded by the number of ids plus one, shown sufficient; the C++ stack limit is not modelled."
  },
  {
   "property": "C79",
   "status": "proved",
   "theorems": [
    "C79_make",
    "C79_defined",
    "C79_find",
    "C79_reversed_refuted"
   ],
   "note": "Reals for floats; the missing return in Iterator::operator= is not modelled; C79_reversed_refuted shows the undefined lookup."
  },
  {
   "property": "C80",
   "status": "proved",
   "theorems": [
    "C80_segment",
    "C80_quads",
    "C80_minus_one_refuted"
   ],
   "note": "Reals for floats; line fitting and clustering are inputs. C80_minus_one_refuted shows the exception."
  },
  {
   "property": "C81",
   "status": "proved",
   "theorems": [
    "C81_error",
    "C81_jacobians",
    "C81_cost",
    "C81_adapter",
    "C81_adapter_defined",
    "C81_adapter_refuted",
    "C81_unseen_refuted",
    "C81_axis_refuted"
   ],
   "note": "Extended unified camera: equal focal lengths (C62 shows its intrinsics Jacobian is wrong otherwise). Reals for doubles. Refutations: C81_unseen_refuted, C81_axis_refuted, C81_adapter_refuted."
  },
  {
   "property": "C82",
   "status": "proved",
   "theorems": [
    "C82_time",
    "C82_time_jacobian",
    "C82_snapshot_refuted",
    "C82_covariance_map",
    "C82_covariance_aligned",
    "C82_weight",
    "C82_covariance_refuted",
    "C82_singular_refuted",
    "C82_no_curve_refuted"
   ],
   "note": "Reals for doubles; times within 2^31 s. Refutations: C82_snapshot_refuted, C82_covariance_refuted, C82_singular_refuted, C82_no_curve_refuted."
  },
  {
   "property": "C83",
   "status": "proved",
   "theorems": [
    "C83_visible",
    "C83_keypoints",
    "C83_matrix",
    "C83_outside_refuted",
    "C83_virtual_refuted",
    "C83_finite_difference_refuted",
    "C83_equal",
    "C83_equal_refuted",
    "C83_matrix_refuted"
   ],
   "note": "Reals for doubles. Refutations: C83_outside_refuted, C83_virtual_refuted, C83_finite_difference_refuted, C83_equal_refuted, C83_matrix_refuted."
  },
  {
   "property": "C84",
   "status": "proved",
   "theorems": [
    "C84_dimensions",
    "C84_set",
    "C84_round_trip",
    "C84_update",
    "C84_jacobian",
    "C84_euclidean",
    "C84_euclidean_refuted",
    "C84_offset",
    "C84_global_refuted",
    "C84_refused_refuted"
   ],
   "note": "Reals for doubles. Refutations: C84_euclidean_refuted, C84_global_refuted, C84_refused_refuted."
  },
  {
   "property": "C85",
   "status": "proved",
   "theorems": [
    "C85_accelerometer",
    "C85_accelerometer_class",
    "C85_gyroscope",
    "C85_size_effect",
    "C85_eccentric_class",
    "C85_eccentric_refuted",
    "C85_curve",
    "C85_curve_refuted",
    "C85_jacobians",
    "C85_stale_refuted",
    "C85_terms"
   ],
   "note": "Reals for doubles. Refutations: C85_eccentric_refuted, C85_curve_refuted, C85_stale_refuted."
  },
  {
   "property": "C86",
   "status": "proved",
   "theorems": [
    "C86_difference",
    "C86_term",
    "C86_check",
    "C86_stale_refuted",
    "C86_twice_refuted",
    "C86_point",
    "C86_parameters",
    "C86_parameters_refuted"
   ],
   "note": "Reals for doubles, so rounding is not covered. Refutations: C86_stale_refuted, C86_twice_refuted, C86_parameters_refuted."
  },
  {
   "property": "C87",
   "status": "proved",
   "theorems": [
    "C87_error",
    "C87_default",
    "C87_rhs",
    "C87_system",
    "C87_order_refuted",
    "C87_scaling_refuted",
    "C87_shrunk_refuted"
   ],
   "note": "Reals for doubles. Refutations: C87_order_refuted, C87_scaling_refuted, C87_shrunk_refuted."
  },
  {
   "property": "C88",
   "status": "proved",
   "theorems": [
    "C88_root",
    "C88_created",
    "C88_later",
    "C88_moved_refuted"
   ],
   "note": "Reals for doubles; the decomposition is a parameter assumed right for the matrices it gets (the hypothesis is met by a concrete one in C88_ex). Refutation: C88_moved_refuted."
  },
  {
   "property": "C89",
   "status": "proved",
   "theorems": [
    "C89_fit",
    "C89_exact",
    "C89_common",
    "C89_focal",
    "C89_throws",
    "C89_columns_refuted",
    "C89_straight_refuted",
    "C89_same_refuted"
   ],
   "note": "Reals for doubles, with 0/0 and its consequences as a separate value; rounding of corners to float and clearing of the distortion not modelled; std::sort is a parameter. Refutations: C89_columns_refuted, C89_straight_refuted, C89_same_refuted."
  },
  {
   "property": "C90",
   "status": "proved",
   "theorems": [
    "C90_line",
    "C90_few",
    "C90_pinhole_view",
    "C90_best",
    "C90_centre",
    "C90_exact",
    "C90_throws",
    "C90_zero_refuted"
   ],
   "note": "cv::SVD::solveZ (a least squares null vector) and cv::solvePnP (any pose) are parameters; reals for doubles and floats; the distortion is the one after clear(). Failure with zero focal lengths: C90_zero_refuted."
  },
  {
   "property": "C91",
   "status": "proved",
   "theorems": [
    "C91_step",
    "C91_plain",
    "C91_consistent",
    "C91_covariance",
    "C91_runs",
    "C91_rejects",
    "C91_analyze",
    "C91_least_squares_refuted",
    "C91_optimum_refuted",
    "C91_nan_refuted"
   ],
   "note": "SuiteSparseQR and JacobiSVD are parameters assumed to be exact decompositions of the matrices they are given; reals for doubles. Bounds taken as inclusive drop one direction: C91_least_squares_refuted, C91_optimum_refuted; not finite step: C91_nan_refuted."
  },
  {
   "property": "C92",
   "status": "proved",
   "theorems": [
    "C92_filter",
    "C92_filter_size",
    "C92_smoothing",
    "C92_inner",
    "C92_border",
    "C92_range",
    "C92_gradient",
    "C92_ramp",
    "C92_convolution_refuted",
    "C92_leak_refuted"
   ],
   "note": "Reals for floats. The offset of the row is left out of the bounds tests: C92_convolution_refuted, C92_leak_refuted."
  },
  {
   "property": "C93",
   "status": "proved",
   "theorems": [
    "C93_line",
    "C93_segment",
    "C93_exact",
    "C93_no_weight"
   ],
   "note": "Reals for floats; division by a zero total weight is undefined."
  },
  {
   "property": "C94",
   "status": "proved",
   "theorems": [
    "C94_edges",
    "C94_order",
    "C94_bounds",
    "C94_selective",
    "C94_clusters",
    "C94_weights"
   ],
   "note": "Reals for floats. The empty border is what step two produces (C92). The groups are the disjoint sets of C78."
  },
  {
   "property": "C95",
   "status": "proved",
   "theorems": [
    "C95_model",
    "C95_read",
    "C95_exact",
    "C95_nearest_pixel_refuted"
   ],
   "note": "Reals for floats. Eigen's inverse with check is a parameter assumed to return two-sided inverses (satisfied by the inverse of diagonal matrices in the example). Decoding the word is C75."
  },
  {
   "property": "C96",
   "status": "proved",
   "theorems": [
    "C96_sums",
    "C96_product",
    "C96_quotient",
    "C96_double",
    "C96_convert",
    "C96_convert_refuted"
   ],
   "note": "Doubles are exact reals. Long double is a parameter: monotone, exact on integers up to 2^64, relative error 2^-64. Narrowing conversions wrap, as the compilers in use do. The failing conversion of negative numbers is stated as _refuted."
  },
  {
   "property": "C97",
   "status": "proved",
   "theorems": [
    "C97_time",
    "C97_time_trip",
    "C97_order",
    "C97_proper_refuted",
    "C97_duration",
    "C97_scale",
    "C97_duration_trip_refuted",
    "C97_negative_refuted",
    "C97_nsec"
   ],
   "note": "Doubles are reals rounded to 53 bits to nearest even with unbounded exponents (Flocq's round). The violations are stated as _refuted: Time::fromSec and Duration::fromSec do not normalize, Duration::fromSec truncates."
  },
  {
   "property": "C98",
   "status": "proved",
   "theorems": [
    "C98_round",
    "C98_lrint_refuted",
    "C98_compare",
    "C98_quadratic",
    "C98_quadratic_refuted",
    "C98_sign"
   ],
   "note": "Reals for floats. The failures of lrint and of the solver are stated as _refuted."
  },
  {
   "property": "C99",
   "status": "proved",
   "theorems": [
    "C99_svd",
    "C99_exact",
    "C99_q",
    "C99_q_equal"
   ],
   "note": "Reals for floats. Eigen's solvers are parameters, assumed to decompose the one matrix they are given (singular values in decreasing order)."
  },
  {
   "property": "C100",
   "status": "proved",
   "theorems": [
    "C100_values",
    "C100_memory",
    "C100_save_load",
    "C100_assign_refuted",
    "C100_set_back_refuted",
    "C100_copy_refuted",
    "C100_load_refuted"
   ],
   "note": "Values are opaque numbers; addresses are never reused; reference counts of descriptors are not modelled."
  },
  {
   "property": "C101",
   "status": "proved",
   "theorems": [
    "C101_defined",
    "C101_closest",
    "C101_exact",
    "C101_symmetric",
    "C101_distance",
    "C101_distance_refuted",
    "C101_behind_refuted"
   ],
   "note": "Reals for floats; a zero determinant is the outcome without a result."
  },
  {
   "property": "C102",
   "status": "proved",
   "theorems": [
    "C102_map",
    "C102_consistent",
    "C102_alpha_one",
    "C102_alpha_zero",
    "C102_plain",
    "C102_valid_refuted",
    "C102_wrap_refuted"
   ],
   "note": "Reals for floats; distortion functions are parameters; cv::remap itself is not modelled."
  },
  {
   "property": "C103",
   "status": "proved",
   "theorems": [
    "C103_ratio",
    "C103_mask",
    "C103_mask_refuted",
    "C103_symmetric",
    "C103_distance_refuted"
   ],
   "note": "Reals for floats; cameras are parameters whose view does not depend on the scale of a homogeneous point; cv::Mat assignment modelled as reuse of pixels of the same size."
  },
  {
   "property": "C104",
   "status": "proved",
   "theorems": [
    "C104_converges",
    "C104_exact",
    "C104_again",
    "C104_descent",
    "C104_tolerance_refuted",
    "C104_stale_refuted",
    "C104_flag_refuted"
   ],
   "note": "Exact arithmetic over the reals; the inverse of a diagonal block (Eigen) is a parameter; dangling block pointers are not modelled."
  },
  {
   "property": "C105",
   "status": "proved",
   "theorems": [
    "C105_refines",
    "C105_extremes",
    "C105_handles",
    "C105_copy_refuted",
    "C105_clock",
    "C105_clock_refuted",
    "C105_string",
    "C105_string_refuted"
   ],
   "note": "Exact arithmetic over the reals; boost accumulators modelled by the sums they keep; threads and the printed table are not modelled. Rounding in printing by Flocq's nearest integer."
  },
  {
   "property": "C106",
   "status": "proved",
   "theorems": [
    "C106_filter",
    "C106_once",
    "C106_throttle",
    "C106_name_refuted",
    "C106_muted_refuted",
    "C106_no_deadlock",
    "C106_deadlock_refuted"
   ],
   "note": "Calls one after the other for the filtering; locks only for the interleavings (data races on the flags are not modelled). Statements hit by the logger itself and the formatting are left out."
  },
  {
   "property": "C107",
   "status": "proved",
   "theorems": [
    "C107_derivative",
    "C107_variables",
    "C107_quotient_swapped",
    "C107_quotient_refuted",
    "C107_variable"
   ],
   "note": "Real arithmetic, so casts are the identity; the node from a vector expression is left out (it does not compile when used)."
  },
  {
   "property": "C108",
   "status": "proved",
   "theorems": [
    "C108_jacobian",
    "C108_factor",
    "C108_differential",
    "C108_quaternions",
    "C108_left_refuted",
    "C108_exp_of_vector_refuted"
   ],
   "note": "Real arithmetic; Eigen's inverse is a parameter required to invert its argument near the point; logarithm, run-time sized constants and the null differential are left out."
  },
  {
   "property": "C109",
   "status": "proved",
   "theorems": [
    "C109_density",
    "C109_cumulative",
    "C109_divergence"
   ],
   "note": "Real arithmetic; erf is a parameter characterised by its derivative, shown to exist."
  },
  {
   "property": "C110",
   "status": "proved",
   "theorems": [
    "C110_estimate",
    "C110_likelihood",
    "C110_order",
    "C110_weighted",
    "C110_weighted_refuted",
    "C110_vectors"
   ],
   "note": "Real arithmetic; the decision of Eigen's LDLT is a parameter."
  },
  {
   "property": "C111",
   "status": "proved",
   "theorems": [
    "C111_support",
    "C111_real",
    "C111_integer",
    "C111_box",
    "C111_mean_refuted",
    "C111_covariance_refuted"
   ],
   "note": "Real arithmetic, integers without bound."
  },
  {
   "property": "C112",
   "status": "proved",
   "theorems": [
    "C112_uniform",
    "C112_uniform_integer",
    "C112_uniform_refuted",
    "C112_categorical",
    "C112_zero_category_refuted",
    "C112_poisson",
    "C112_exponential",
    "C112_geometric",
    "C112_normal",
    "C112_normal_integer_refuted"
   ],
   "note": "Real arithmetic; random() is the list of the numbers it returns; sampleGamma is not modelled."
  },
  {
   "property": "C113",
   "status": "proved",
   "theorems": [
    "C113_parameters",
    "C113_density",
    "C113_moments",
    "C113_mode",
    "C113_divergence",
    "C113_divergence_refuted",
    "C113_chi_square"
   ],
   "note": "Real arithmetic; log-gamma and digamma are parameters; cdf, invcdf, the density at 0 for shapes other than 1 and the approximate median are not modelled."
  },
  {
   "property": "C114",
   "status": "proved",
   "theorems": [
    "C114_call",
    "C114_history",
    "C114_works",
    "C114_square_analysis_refuted",
    "C114_square_refuted",
    "C114_failure_refuted"
   ],
   "note": "Only the allocation and the flow of exceptions are modelled; whether each library call works is an oracle."
  },
  {
   "property": "C115",
   "status": "proved",
   "theorems": [
    "C115_mutual_exclusion",
    "C115_unlock",
    "C115_relock",
    "C115_no_lost_wakeup",
    "C115_trylock_refuted",
    "C115_wait_unlock_refuted",
    "C115_jam_refuted"
   ],
   "note": "Steps are atomic between releases of the POSIX mutex; POSIX calls fail only by time-out; one condition without time-out, woken one thread at a time; states of registered threads left out."
  },
  {
   "property": "C116",
   "status": "proved",
   "theorems": [
    "C116_update",
    "C116_revert",
    "C116_update_refuted",
    "C116_blocks",
    "C116_rows_refuted",
    "C116_stale_refuted"
   ],
   "note": "Real arithmetic; patterns of integers; debug assertions off; minimalDifference is not modelled."
  },
  {
   "property": "C117",
   "status": "proved",
   "theorems": [
    "C117_ends",
    "C117_descends",
    "C117_damping",
    "C117_gauss_newton",
    "C117_reported_refuted",
    "C117_failure_refuted",
    "C117_first_failure_refuted",
    "C117_estimate_refuted"
   ],
   "note": "The linear algebra is an oracle giving the next state, the step size and the predicted decrease; real arithmetic; optimizeDogLeg is not modelled."
  },
  {
   "property": "C118",
   "status": "proved",
   "theorems": [
    "C118_region",
    "C118_first",
    "C118_round",
    "C118_rounds",
    "C118_descent_refuted",
    "C118_prediction_refuted"
   ],
   "note": "The two candidate steps are parameters of the rounds; the linear solver and its fallback are not modelled; real arithmetic."
  },
  {
   "property": "C119",
   "status": "proved",
   "theorems": [
    "C119_print",
    "C119_unknown",
    "C119_field",
    "C119_severity",
    "C119_again_refuted"
   ],
   "note": "The regular expression is modelled by hand; colours, the end of the line and texts with a zero character are left out."
  },
  {
   "property": "C120",
   "status": "proved",
   "theorems": [
    "C120_contents",
    "C120_deleted",
    "C120_cleared",
    "C120_distinct",
    "C120_term_twice_refuted"
   ],
   "note": "Reference counts of boost::shared_ptr are modelled by control blocks; effects of the objects' own destructors are left out."
  },
  {
   "property": "C121",
   "status": "proved",
   "theorems": [
    "C121_elimination",
    "C121_step",
    "C121_coupled_refuted"
   ],
   "note": "Real numbers instead of doubles; the matrix inverse is a parameter that inverts the marginalized blocks; vectors are indexed by block."
  },
  {
   "property": "C122",
   "status": "proved",
   "theorems": [
    "C122_order",
    "C122_terms",
    "C122_rows",
    "C122_moves",
    "C122_size",
    "C122_size_refuted"
   ],
   "note": "Which terms the problem reports for a variable is a parameter; real numbers; the sizes of the matrices are only modelled by the row offsets."
  },
  {
   "property": "C123",
   "status": "proved",
   "theorems": [
    "C123_all",
    "C123_span",
    "C123_count",
    "C123_refused",
    "C123_span_refuted",
    "C123_shuffle_refuted"
   ],
   "note": "Times are exact where the reader computes with doubles; the correction of time stamps is left out."
  },
  {
   "property": "C124",
   "status": "proved",
   "theorems": [
    "C124_apart",
    "C124_entries",
    "C124_add",
    "C124_counted",
    "C124_one_cam",
    "C124_pairs",
    "C124_listed",
    "C124_order_refuted"
   ],
   "note": "Times are integers where the code has doubles; the sets of observed corners are left out."
  },
  {
   "property": "C125",
   "status": "proved",
   "theorems": [
    "C125_same",
    "C125_killed",
    "C125_ends",
    "C125_killed_refuted"
   ],
   "note": "The queues of the managers are taken to be atomic and the detector to depend on nothing but the image and its stamp."
  },
  {
   "property": "C126",
   "status": "proved",
   "theorems": [
    "C126_errors",
    "C126_refines",
    "C126_splits",
    "C126_only",
    "C126_extended",
    "C126_tail_refuted",
    "C126_knot_refuted",
    "C126_twice_refuted"
   ],
   "note": "Times and errors are integers where the code has doubles. The segments disabled for want of improvement are a parameter, as is the list of them that the code keeps for all calibrations together."
  },
  {
   "property": "C127",
   "status": "proved",
   "theorems": [
    "C127_edges",
    "C127_mutual",
    "C127_chain",
    "C127_target"
   ],
   "note": "Transformations are any group; the pair calibrations, the choice of paths by igraph and the final refinement are left out."
  },
  {
   "property": "C128",
   "status": "proved",
   "theorems": [
    "C128_intrinsics",
    "C128_kept",
    "C128_distortion",
    "C128_target",
    "C128_message_refuted",
    "C128_zero_refuted",
    "C128_first_refuted"
   ],
   "note": "Floats are rationals, without infinities and NaN; missing fields and the reading of the file are left out."
  }
 ]
}