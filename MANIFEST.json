{
 "claims": [
  {
   "property": "C01",
   "status": "proved",
   "theorems": [
    "C01_mask_is_a_lossless_view",
    "C01_disable_enable_keeps_edits"
   ],
   "note": ""
  },
  {
   "property": "C02",
   "status": "proved",
   "theorems": [
    "C02_assignment_outcome",
    "C02_rejected_changes_nothing",
    "C02_accepted_is_read_back"
   ],
   "note": ""
  },
  {
   "property": "C03",
   "status": "proved",
   "theorems": [
    "C03_indexing",
    "C03_bool_key_is_a_position_refuted"
   ],
   "note": "C03_bool_key_is_a_position_refuted records that booleans are not treated as positions."
  },
  {
   "property": "C04",
   "status": "proved",
   "theorems": [
    "C04_mask_assignment_is_private",
    "C04_time_assignment_is_private",
    "C04_reads_indexing_and_fits_are_private",
    "C04_array_edits_are_private",
    "C04_time_items_are_shared",
    "C04_pending_edits_are_absent_from_the_copy",
    "C04_refit_of_copy_is_private_refuted"
   ],
   "note": "Independence holds for histories in which an instance is not refitted while it shares its operator (reach); C04_refit_of_copy_is_private_refuted shows the restriction is needed."
  },
  {
   "property": "C05",
   "status": "proved",
   "theorems": [
    "C05_keys_are_kept",
    "C05_foreign_key_is_rejected",
    "C05_original_and_dmd_time_are_independent",
    "C05_item_assignment_is_read_back",
    "C05_before_fit_original_time_raises",
    "C05_keys_are_kept_by_any_operation_refuted"
   ],
   "note": "Key invariant under item assignment, valid-key update and well-formed whole-dictionary assignment; refuted for update with foreign keys, del and plain dictionaries."
  },
  {
   "property": "C06",
   "status": "proved",
   "theorems": [
    "C06_timesteps_progression",
    "C06_first_and_last",
    "C06_aligned_window",
    "C06_window_ending_before_it_starts",
    "C06_zero_step_raises",
    "C06_steps_stay_in_window_refuted"
   ],
   "note": ""
  },
  {
   "property": "C07",
   "status": "proved",
   "theorems": [
    "C07_dynamics_entry",
    "C07_anchor_column",
    "C07_step",
    "C07_negative_opt",
    "C07_anchor_is_the_snapshot"
   ],
   "note": ""
  },
  {
   "property": "C08",
   "status": "proved",
   "theorems": [
    "C08_outer_products",
    "C08_partition",
    "C08_empty"
   ],
   "note": ""
  },
  {
   "property": "C09",
   "status": "proved",
   "theorems": [
    "C09_array_input",
    "C09_list_input",
    "C09_list_and_array_agree",
    "C09_snapshot_is_recoverable",
    "C09_array_rejected",
    "C09_list_rejected",
    "C09_rejections_are_value_errors"
   ],
   "note": ""
  },
  {
   "property": "C10",
   "status": "proved",
   "theorems": [
    "C10_integer_rank",
    "C10_optimal_rank",
    "C10_optimal_rank_at_most_half",
    "C10_optimal_rank_scale_invariant",
    "C10_energy_rank",
    "C10_energy_rank_monotone",
    "C10_no_truncation",
    "C10_rank_in_range"
   ],
   "note": ""
  },
  {
   "property": "C11",
   "status": "proved",
   "theorems": [
    "C11_pseudo_hankel_entries",
    "C11_too_many_delays_raise"
   ],
   "note": ""
  },
  {
   "property": "C12",
   "status": "proved",
   "theorems": [
    "C12_rank_zero",
    "C12_projector",
    "C12_truncated_svd",
    "C12_keeps_linear_relation"
   ],
   "note": ""
  },
  {
   "property": "C13",
   "status": "proved",
   "theorems": [
    "C13_exact_modes",
    "C13_projected_modes",
    "C13_reduced_operator",
    "C13_least_squares",
    "C13_tikhonov",
    "C13_forward_backward_refuted"
   ],
   "note": "Identities for every decomposition satisfying the SVD/eig contracts; forward_backward is refuted."
  },
  {
   "property": "C14",
   "status": "proved",
   "theorems": [
    "C14_enough",
    "C14_end_to_end",
    "C14_two_arguments",
    "C14_pair_amplitudes",
    "C14_two_end_to_end",
    "C14_predict",
    "C14_reconstruction",
    "C14_reconstruction_optimal",
    "C14_states_are_snapshots",
    "C14_needs_invariance_refuted",
    "C14_optimal_projected_refuted"
   ],
   "note": "Needs the last snapshot in the span of the others (C14_needs_invariance_refuted) and not opt=True with projected modes (C14_optimal_projected_refuted)."
  },
  {
   "property": "C15",
   "status": "proved",
   "theorems": [
    "C15_one_permutation",
    "C15_stable",
    "C15_bad_value"
   ],
   "note": ""
  },
  {
   "property": "C16",
   "status": "proved",
   "theorems": [
    "C16_mode_combinations",
    "C16_linear",
    "C16_kernel",
    "C16_orthogonal"
   ],
   "note": ""
  },
  {
   "property": "C17",
   "status": "proved",
   "theorems": [
    "C17_bopdmd_keeps_basis",
    "C17_bopdmd_keeps_rank",
    "C17_bopdmd_refuted",
    "C17_successful_fit_shows_only_the_new_fit",
    "C17_mrdmd_refit",
    "C17_mrdmd_sticky_level_refuted",
    "C17_mrdmd_level_history",
    "C17_refit",
    "C17_auto_keeps_first_factors",
    "C17_auto_rejects_other_rank",
    "C17_auto_refuted"
   ],
   "note": "Independence of any history of fits for DMD/DMDBase when rescale_mode is not 'auto'; refuted for 'auto', for RDMD (C32_rdmd_keeps_test_matrix, C32_rdmd_refit_refuted), for MrDMD's max_level and for BOPDMD, whose first basis, rank and eigenvalue count bind every later fit (C17_bopdmd_keeps_*)."
  },
  {
   "property": "C18",
   "status": "proved",
   "theorems": [
    "C18_failed_fit_exposes_no_amplitudes_or_mask",
    "C18_failed_refit_shows_the_operator",
    "C18_failed_fit_is_all_or_nothing_refuted"
   ],
   "note": ""
  },
  {
   "property": "C19",
   "status": "proved",
   "theorems": [
    "C19_slots_bijective",
    "C19_last_write",
    "C19_read_errors",
    "C19_iteration",
    "C19_negative_leaf_refuted",
    "C19_unchecked_write_refuted"
   ],
   "note": ""
  },
  {
   "property": "C20",
   "status": "proved",
   "theorems": [
    "C20_split_exact",
    "C20_each_column_once",
    "C20_time_aligned",
    "C20_time_offset",
    "C20_time_refuted",
    "C20_nesting_refuted"
   ],
   "note": ""
  },
  {
   "property": "C21",
   "status": "proved",
   "theorems": [
    "C21_threshold_log",
    "C21_effective_level",
    "C21_leaf_width",
    "C21_fit_total",
    "C21_three_snapshots",
    "C21_sequence_clamp_refuted"
   ],
   "note": ""
  },
  {
   "property": "C22",
   "status": "proved",
   "theorems": [
    "C22_window_bins",
    "C22_tiling",
    "C22_interval_errors",
    "C22_window_attributes",
    "C22_empty_window_refuted"
   ],
   "note": ""
  },
  {
   "property": "C23",
   "status": "proved",
   "theorems": [
    "C23_residual_chain",
    "C23_additive",
    "C23_partial_reconstruction",
    "C23_cast_refuted",
    "C23_whole"
   ],
   "note": ""
  },
  {
   "property": "C24",
   "status": "proved",
   "theorems": [
    "C24_first",
    "C24_average",
    "C24_mean_weights",
    "C24_exact",
    "C24_first_window_free",
    "C24_fit",
    "C24_fit_short",
    "C24_hodmd_exact",
    "C24_hodmd_fit",
    "C24_fit_iterable_refuted",
    "C24_origin_refuted",
    "C24_time_step_refuted",
    "C24_columns_refuted",
    "C24_mean_window_refuted",
    "C24_weights_checked",
    "C24_weights_kept",
    "C24_weights_unchecked_refuted"
   ],
   "note": ""
  },
  {
   "property": "C25",
   "status": "proved",
   "theorems": [
    "C25_first_inverts",
    "C25_mean_inverts",
    "C25_weights_invert",
    "C25_blocks_available",
    "C25_block_table",
    "C25_zero_weight_refuted",
    "C25_errors",
    "C25_window_too_long"
   ],
   "note": ""
  },
  {
   "property": "C26",
   "status": "proved",
   "theorems": [
    "C26_fit",
    "C26_pre_error",
    "C26_training_data",
    "C26_missing_data",
    "C26_reconstructed",
    "C26_roundtrip",
    "C26_attributes",
    "C26_bitmask",
    "C26_none_refused",
    "C26_fit_return_refuted",
    "C26_failed_fit_refuted",
    "C26_assignment_refuted",
    "C26_zero_mean",
    "C26_svd_projection",
    "C26_svd_projection_refuted",
    "C26_randomized",
    "C26_randomized_best"
   ],
   "note": ""
  },
  {
   "property": "C27",
   "status": "proved",
   "theorems": [
    "C27_select",
    "C27_select_any_mask",
    "C27_composition_refuted",
    "C27_composition_removes_refuted",
    "C27_nullify_refuted",
    "C27_criterion_raises",
    "C27_not_in_place",
    "C27_in_place",
    "C27_interface",
    "C27_on_DMDBase",
    "C27_stabilize_place"
   ],
   "note": ""
  },
  {
   "property": "C28",
   "status": "proved",
   "theorems": [
    "C28_threshold",
    "C28_threshold_inclusive_refuted",
    "C28_stable_modes_arguments",
    "C28_stable_modes",
    "C28_zero_distance_refuted",
    "C28_integral_contribution",
    "C28_integral_zero_refuted"
   ],
   "note": ""
  },
  {
   "property": "C29",
   "status": "proved",
   "theorems": [
    "C29_stabilize",
    "C29_dynamics",
    "C29_idempotent",
    "C29_boundary_refuted"
   ],
   "note": ""
  },
  {
   "property": "C30",
   "status": "proved",
   "theorems": [
    "C30_isolated",
    "C30_same_result",
    "C30_each_once",
    "C30_get_subset_copy",
    "C30_bad_criterion",
    "C30_not_atomic_refuted"
   ],
   "note": ""
  },
  {
   "property": "C31",
   "status": "proved",
   "theorems": [
    "C31_recursion",
    "C31_default_input",
    "C31_input_row",
    "C31_refusals",
    "C31_input_shape",
    "C31_known_B",
    "C31_unknown_B",
    "C31_identifies",
    "C31_simulates",
    "C31_least_squares_unknown",
    "C31_least_squares_known",
    "C31_tlsq_ignored",
    "C31_amplitudes",
    "C31_fractional_dt_refuted",
    "C31_double_dt_refuted"
   ],
   "note": ""
  },
  {
   "property": "C32",
   "status": "proved",
   "theorems": [
    "C32_identity",
    "C32_identity_arguments",
    "C32_isometric",
    "C32_isometric_truncated",
    "C32_lossless",
    "C32_linear",
    "C32_sample",
    "C32_amplitudes",
    "C32_refusals",
    "C32_auto_refuted",
    "C32_rdmd",
    "C32_rdmd_draw",
    "C32_rdmd_keeps_test_matrix",
    "C32_rdmd_refit_refuted",
    "C32_forward_backward",
    "C32_compressed_forward_backward"
   ],
   "note": ""
  },
  {
   "property": "C33",
   "status": "proved",
   "theorems": [
    "C33_unitary",
    "C33_symmetric_structure",
    "C33_skew_structure",
    "C33_symmetric",
    "C33_skew",
    "C33_reduced_A",
    "C33_full_eigenpairs",
    "C33_uppertriangular",
    "C33_lowertriangular",
    "C33_banded",
    "C33_toeplitz",
    "C33_hankel",
    "C33_circulant",
    "C33_circulant_structure",
    "C33_circulant_unitary_refuted",
    "C33_symtridiagonal",
    "C33_symtridiagonal_structure",
    "C33_block_circulant",
    "C33_bccb",
    "C33_bccb_structure",
    "C33_bccb_unitary_refuted",
    "C33_refused_without_A",
    "C33_refused_unknown",
    "C33_refused_block_shape",
    "C33_band_option",
    "C33_get_A",
    "C33_uppertriangular_refuted",
    "C33_symmetric_complex_refuted",
    "C33_circulant_complex_refuted"
   ],
   "note": "Structure and optimality for every manifold under the conditions in the statement; the _refuted theorems show that the conditions are needed."
  },
  {
   "property": "C34",
   "status": "proved",
   "theorems": [
    "C34_roll",
    "C34_fit",
    "C34_forecast",
    "C34_interpolated",
    "C34_reconstructed",
    "C34_exact"
   ],
   "note": ""
  },
  {
   "property": "C35",
   "status": "proved",
   "theorems": [
    "C35_parameters",
    "C35_training_parameters",
    "C35_fit_checks",
    "C35_instances_checked",
    "C35_failed_fit_refuted",
    "C35_time_assigned",
    "C35_times_in_step",
    "C35_time_survives",
    "C35_refusals"
   ],
   "note": ""
  },
  {
   "property": "C36",
   "status": "proved",
   "theorems": [
    "C36_exact_zeros",
    "C36_optimal",
    "C36_system",
    "C36_accepts",
    "C36_iterations",
    "C36_alpha_step",
    "C36_soft_threshold",
    "C36_soft_threshold_refuted",
    "C36_no_iterations_refuted",
    "C36_no_component_refuted",
    "C36_opt_index_refuted"
   ],
   "note": ""
  },
  {
   "property": "C37",
   "status": "proved",
   "theorems": [
    "C37_hankel",
    "C37_series",
    "C37_refusals",
    "C37_refusals_kind",
    "C37_dehankel",
    "C37_round_trip",
    "C37_round_trip_refuted",
    "C37_complex_refuted",
    "C37_spare_rows_refuted",
    "C37_embeddings_to_data",
    "C37_structured_length_refuted"
   ],
   "note": ""
  },
  {
   "property": "C38",
   "status": "proved",
   "theorems": [
    "C38_slices",
    "C38_no_slices",
    "C38_slices_cover",
    "C38_slices_exact",
    "C38_threshold",
    "C38_threshold_defined",
    "C38_integer_p_refuted",
    "C38_probability_refuted",
    "C38_fit",
    "C38_failed_fit",
    "C38_parameters",
    "C38_times",
    "C38_split",
    "C38_eigs",
    "C38_single_coordinate_refuted",
    "C38_reconstruction",
    "C38_predict",
    "C38_failed_fit_refuted"
   ],
   "note": ""
  },
  {
   "property": "C39",
   "status": "proved",
   "theorems": [
    "C39_constructor",
    "C39_complex",
    "C39_one_argument_refuted",
    "C39_one_argument",
    "C39_paired",
    "C39_svd_vals",
    "C39_rank",
    "C39_training",
    "C39_koopman",
    "C39_linear",
    "C39_linear_system",
    "C39_count_refuted"
   ],
   "note": ""
  },
  {
   "property": "C40",
   "status": "proved",
   "theorems": [
    "C40_constructor",
    "C40_stable",
    "C40_imag",
    "C40_none",
    "C40_combined",
    "C40_conj",
    "C40_conj_error",
    "C40_conj_closed",
    "C40_conj_exact",
    "C40_conj_junk",
    "C40_real_spectrum_refuted",
    "C40_fit",
    "C40_fit_stable",
    "C40_fit_imag",
    "C40_init_alpha",
    "C40_same_sign_refuted",
    "C40_order_refuted"
   ],
   "note": ""
  },
  {
   "property": "C41",
   "status": "proved",
   "theorems": [
    "C41_descent",
    "C41_coefficients",
    "C41_errors",
    "C41_step",
    "C41_jacobian",
    "C41_converged_refuted",
    "C41_iteration",
    "C41_gives_up",
    "C41_damping",
    "C41_scales",
    "C41_derivative",
    "C41_derivative_imaginary",
    "C41_gradient",
    "C41_downhill",
    "C41_stationary",
    "C41_derivative_refuted"
   ],
   "note": ""
  },
  {
   "property": "C42",
   "status": "proved",
   "theorems": [
    "C42_bag",
    "C42_bag_error",
    "C42_trial",
    "C42_statistics",
    "C42_auto_sort",
    "C42_raises",
    "C42_ends",
    "C42_ends_keeping",
    "C42_stable_answer",
    "C42_maxfail_zero_refuted",
    "C42_exact_data_refuted"
   ],
   "note": ""
  },
  {
   "property": "C43",
   "status": "proved",
   "theorems": [
    "C43_layout",
    "C43_inside",
    "C43_covers",
    "C43_errors",
    "C43_failed_refit_refuted"
   ],
   "note": ""
  },
  {
   "property": "C44",
   "status": "proved",
   "theorems": [
    "C44_average",
    "C44_agree",
    "C44_between",
    "C44_separation",
    "C44_uncovered",
    "C44_pipeline",
    "C44_exact",
    "C44_stale_refuted",
    "C44_means_refuted"
   ],
   "note": ""
  },
  {
   "property": "C45",
   "status": "proved",
   "theorems": [
    "C45_bands",
    "C45_renumbered",
    "C45_order",
    "C45_period_refuted",
    "C45_pairs",
    "C45_default_refuted",
    "C45_method_refuted",
    "C45_period_zero",
    "C45_count",
    "C45_succeeds",
    "C45_sweep",
    "C45_sweep_small_refuted",
    "C45_sweep_range"
   ],
   "note": ""
  },
  {
   "property": "C46",
   "status": "proved",
   "theorems": [
    "C46_levels",
    "C46_in_order",
    "C46_arguments",
    "C46_readable",
    "C46_overwritten_refuted",
    "C46_multires",
    "C46_round_trip",
    "C46_reconstructions",
    "C46_storable",
    "C46_restorable",
    "C46_constraints_none_refuted",
    "C46_constraints_callable_refuted",
    "C46_recluster",
    "C46_recluster_refuted",
    "C46_keywords",
    "C46_saved",
    "C46_saved_global",
    "C46_automatic_rank_refuted"
   ],
   "note": "Round trip of COSTS through a dataset and of mrCOSTS through files; the documented 'complete round trip without alteration' fails for eig_constraints=None, callables, re-clustering, automatic ranks and equal window lengths (refuted theorems)."
  },
  {
   "property": "C47",
   "status": "proved",
   "theorems": [
    "C47_parts",
    "C47_derivative",
    "C47_gradients",
    "C47_custom_gradient",
    "C47_rbf_refuted",
    "C47_linear_kernel",
    "C47_modes",
    "C47_analysis",
    "C47_rbf_model_refuted"
   ],
   "note": "C47_rbf_refuted and C47_rbf_model_refuted: the gradient of the Gaussian kernel has the wrong sign. C47_modes is for real gradients of full rank, as the SVD keeps them."
  },
  {
   "property": "C48",
   "status": "proved",
   "theorems": [
    "C48_offline",
    "C48_online",
    "C48_online_exact",
    "C48_recovery_online",
    "C48_recovery_offline",
    "C48_sparse_dictionary",
    "C48_update_needs_online",
    "C48_not_fitted",
    "C48_fit_succeeds",
    "C48_kernels",
    "C48_default_poly",
    "C48_kernel_values",
    "C48_linear_offline",
    "C48_linear_online",
    "C48_predict",
    "C48_predict_orbit",
    "C48_predict_refuted",
    "C48_predict_complex_refuted"
   ],
   "note": "For real snapshots, kernels that are positive on real vectors (C48_kernels: linear and polynomial with nonnegative parameters; rbf when the exponential is given as a positive kernel) and a first snapshot with k(x,x) /= 0. C48_predict_refuted and C48_predict_complex_refuted: predict fails on multi-axis snapshots and drops imaginary parts. predict with continuous=True (solve_ivp) is not modelled."
  },
  {
   "property": "C49",
   "status": "proved",
   "theorems": [
    "C49_packing",
    "C49_residual",
    "C49_few_samples",
    "C49_jacobian",
    "C49_jacobian_imaginary",
    "C49_gradient",
    "C49_stationary",
    "C49_jacobian_refuted",
    "C49_cost_refuted",
    "C49_schedule_refuted",
    "C49_refit_refuted",
    "C49_auto_refuted",
    "C49_model",
    "C49_forecast",
    "C49_recovery",
    "C49_ssr",
    "C49_selection",
    "C49_sorting",
    "C49_descending",
    "C49_auto",
    "C49_bad_compression",
    "C49_unfitted",
    "C49_reconstruction",
    "C49_mask",
    "C49_stale",
    "C49_bad_sort",
    "C49_initial_refuted"
   ],
   "note": "scipy's least_squares, the pivoted QR, argsort and exp are oracles; C49_forecast, C49_recovery and C49_ssr are for optimisers that evaluate their answer last, and C49_schedule_refuted shows that the hypothesis is needed. C49_jacobian_refuted, C49_cost_refuted, C49_initial_refuted, C49_auto_refuted and C49_refit_refuted: documented or intended behaviour that fails. A mode of norm zero gives NaN in the code and 0 in the model."
  },
  {
   "property": "C50",
   "status": "proved",
   "theorems": [
    "C50_svd",
    "C50_evd",
    "C50_svd_exact",
    "C50_predict_errors",
    "C50_refused",
    "C50_refit",
    "C50_one_argument",
    "C50_end_to_end",
    "C50_negative_refuted"
   ],
   "note": ""
  },
  {
   "property": "C51",
   "status": "proved",
   "theorems": [
    "C51_eigenpairs",
    "C51_linear",
    "C51_enough",
    "C51_truncated",
    "C51_reconstruction",
    "C51_auto_refuted",
    "C51_svd_rank",
    "C51_end_to_end"
   ],
   "note": ""
  },
  {
   "property": "C52",
   "status": "proved",
   "theorems": [
    "C52_exact_on_quadratics",
    "C52_linear",
    "C52_row_wise",
    "C52_too_few_samples_raise",
    "C52_exact_on_cubics_refuted"
   ],
   "note": ""
  },
  {
   "property": "C53",
   "status": "proved",
   "theorems": [
    "C53_dmd",
    "C53_cdmd",
    "C53_projected_refuted",
    "C53_pair"
   ],
   "note": ""
  },
  {
   "property": "C54",
   "status": "proved",
   "theorems": [
    "C54_same",
    "C54_errors",
    "C54_refuses",
    "C54_bagged_forecast_refuted"
   ],
   "note": ""
  },
  {
   "property": "C55",
   "status": "proved",
   "theorems": [
    "C55_modes",
    "C55_forecast",
    "C55_forecast_errors",
    "C55_spread",
    "C55_exact"
   ],
   "note": ""
  },
  {
   "property": "C56",
   "status": "proved",
   "theorems": [
    "C56_local",
    "C56_window_only",
    "C56_last",
    "C56_global",
    "C56_last_refuted",
    "C56_init_alpha_refuted",
    "C56_no_rank",
    "C56_rank_refused",
    "C56_leak_refuted"
   ],
   "note": ""
  },
  {
   "property": "C57",
   "status": "proved",
   "theorems": [
    "C57_update",
    "C57_read_refuted",
    "C57_amplitudes_refuted",
    "C57_count_refuted",
    "C57_again",
    "C57_linear_refuted",
    "C57_refit_refuted"
   ],
   "note": "The positive parts are C57_update and C57_again; the theorems named _refuted state what happens instead of the natural expectation."
  },
  {
   "property": "C58",
   "status": "proved",
   "theorems": [
    "C58_levels",
    "C58_telescope",
    "C58_classes",
    "C58_reconstruction",
    "C58_constructor",
    "C58_constructor_check",
    "C58_default_refuted",
    "C58_no_count_refuted",
    "C58_refit_refuted",
    "C58_stale_refuted",
    "C58_truncated_refuted",
    "C58_single_window_refuted",
    "C58_slow_column_refuted",
    "C58_slow_window_refuted",
    "C58_background_means",
    "C58_sweep",
    "C58_sweep_used",
    "C58_sweep_empty"
   ],
   "note": "BOPDMD, KMeans, silhouette, exp, tanh and log are oracles as in C43-C45; xarray alignment and nearest-neighbour interpolation are modelled for increasing window centres. The theorems named _refuted state what happens instead of the natural expectation."
  },
  {
   "property": "C59",
   "status": "proved",
   "theorems": [
    "C59_ratio",
    "C59_plot_eigs",
    "C59_errors",
    "C59_mrdmd",
    "C59_level_zero_refuted"
   ],
   "note": ""
  },
  {
   "property": "C60",
   "status": "proved",
   "theorems": [
    "C60_figures",
    "C60_fortran",
    "C60_axes",
    "C60_default",
    "C60_errors",
    "C60_rectangular_refuted",
    "C60_files"
   ],
   "note": ""
  },
  {
   "property": "C61",
   "status": "proved",
   "theorems": [
    "C61_aligned",
    "C61_draws",
    "C61_refuses",
    "C61_refuses_shape",
    "C61_econ_refuted",
    "C61_forecast_refuted",
    "C61_variance_refuted",
    "C61_visible",
    "C61_visible_dynamics",
    "C61_complete",
    "C61_colours",
    "C61_conversion",
    "C61_sizes",
    "C61_percents",
    "C61_delays"
   ],
   "note": ""
  },
  {
   "property": "C62",
   "status": "proved",
   "theorems": [
    "C62_modes",
    "C62_layout",
    "C62_titles",
    "C62_listed",
    "C62_conjugates",
    "C62_eigs",
    "C62_refuses",
    "C62_draws",
    "C62_pairs_refuted"
   ],
   "note": ""
  },
  {
   "property": "C63",
   "status": "proved",
   "theorems": [
    "C63_accepted",
    "C63_values",
    "C63_warnings",
    "C63_quiet",
    "C63_displayed",
    "C63_kept",
    "C63_printed",
    "C63_printed_refuted"
   ],
   "note": ""
  },
  {
   "property": "C64",
   "status": "proved",
   "theorems": [
    "C64_lando",
    "C64_lando_errors",
    "C64_custom_metric_refuted",
    "C64_features_refuted",
    "C64_edmd",
    "C64_edmd_errors",
    "C64_agree",
    "C64_constants",
    "C64_gamma_none_refuted",
    "C64_values"
   ],
   "note": ""
  },
  {
   "property": "C65",
   "status": "proved",
   "theorems": [
    "C65_curves",
    "C65_red",
    "C65_quiet_refuted",
    "C65_range_refuted",
    "C65_stars",
    "C65_stars_sorted",
    "C65_list_refuted",
    "C65_unfitted"
   ],
   "note": ""
  },
  {
   "property": "C66",
   "status": "proved",
   "theorems": [
    "C66_series",
    "C66_residual_refuted",
    "C66_series_index",
    "C66_no_residual",
    "C66_separation",
    "C66_bands",
    "C66_one_band_refuted",
    "C66_one_band_separation",
    "C66_given",
    "C66_given_hf",
    "C66_reuse_refuted",
    "C66_percent",
    "C66_periods",
    "C66_periods_errors",
    "C66_omega",
    "C66_histogram",
    "C66_colors"
   ],
   "note": ""
  },
  {
   "property": "C67",
   "status": "proved",
   "theorems": [
    "C67_input",
    "C67_means_refuted",
    "C67_given",
    "C67_shape",
    "C67_levels",
    "C67_negative",
    "C67_separation",
    "C67_reconstructions",
    "C67_series",
    "C67_error"
   ],
   "note": ""
  },
  {
   "property": "C68",
   "status": "proved",
   "theorems": [
    "C68_frequency",
    "C68_alias",
    "C68_real",
    "C68_real_refuted",
    "C68_growth",
    "C68_growth_refuted",
    "C68_varpro",
    "C68_no_time_refuted",
    "C68_unfitted"
   ],
   "note": ""
  }
 ]
}