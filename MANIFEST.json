{
 "claims": [
  {
   "property": "C01",
   "status": "proved",
   "theorems": [
    "C01_pad_crop_places_by_centre_offset"
   ],
   "note": ""
  },
  {
   "property": "C02",
   "status": "proved",
   "theorems": [
    "C02_pad_crop_chain_equals_direct",
    "C02_pad_crop_chain_order_irrelevant",
    "C02_pad_then_crop_is_identity",
    "C02_unrestricted_chaining_refuted"
   ],
   "note": "the unrestricted docstring claim is refuted by a witness; the corrected law is proved"
  },
  {
   "property": "C03",
   "status": "proved",
   "theorems": [
    "C03_pad_crop_accepts_exactly_valid_sizes",
    "C03_pad_crop_py_result",
    "C03_numpy_integer_sizes_accepted_refuted"
   ],
   "note": ""
  },
  {
   "property": "C04",
   "status": "proved",
   "theorems": [
    "C04_offcenter_crop_window",
    "C04_offcenter_crop_window_integer_centre"
   ],
   "note": ""
  },
  {
   "property": "C05",
   "status": "proved",
   "theorems": [
    "C05_ceil_even_is_least_even",
    "C05_ceil_odd_is_least_odd",
    "C05_pad_to_even_square_lossless"
   ],
   "note": ""
  },
  {
   "property": "C06",
   "status": "proved",
   "theorems": [
    "C06_bin_downsample_block_means",
    "C06_bin_downsample_preserves_total",
    "C06_non_divisible_rejected_refuted"
   ],
   "note": ""
  },
  {
   "property": "C07",
   "status": "proved",
   "theorems": [
    "C07_create_axis_samples",
    "C07_create_axis_antisymmetric",
    "C07_radial_grid_is_distance_from_centre"
   ],
   "note": ""
  },
  {
   "property": "C08",
   "status": "proved",
   "theorems": [
    "C08_nextpow2_least_exponent"
   ],
   "note": ""
  },
  {
   "property": "C09",
   "status": "proved",
   "theorems": [
    "C09_allcomb_members",
    "C09_allcomb_count",
    "C09_allcomb_lexicographic_position"
   ],
   "note": ""
  },
  {
   "property": "C10",
   "status": "proved",
   "theorems": [
    "C10_real_scalar",
    "C10_real_positive_scalar",
    "C10_real_nonnegative_scalar",
    "C10_scalar_integer",
    "C10_positive_scalar_integer",
    "C10_nonnegative_scalar_integer",
    "C10_string",
    "C10_boolean",
    "C10_dictionary",
    "C10_oneD_array",
    "C10_twoD_array",
    "C10_threeD_array",
    "C10_twoD_square_array",
    "C10_real_array",
    "C10_centering",
    "C10_is_dict_is_bool",
    "C10_positive_excludes_nan_refuted",
    "C10_bytes_name_raises_given_class_refuted"
   ],
   "note": ""
  },
  {
   "property": "C11",
   "status": "proved",
   "theorems": [
    "C11_keyword_wins",
    "C11_default_kept",
    "C11_new_keyword_kept",
    "C11_lists_extended",
    "C11_merge_method",
    "C11_nested_object_merged_refuted"
   ],
   "note": "deepmerge's documented strategies are part of the trusted base; refuted for nested Objects"
  },
  {
   "property": "C12",
   "status": "proved",
   "theorems": [
    "C12_item_access",
    "C12_attribute_access",
    "C12_agree_partial",
    "C12_agreement_refuted",
    "C12_reading_item_data_erases"
   ],
   "note": "the naive agreement is refuted by C12_agreement_refuted"
  },
  {
   "property": "C13",
   "status": "proved",
   "theorems": [
    "C13_terminates_and_restores",
    "C13_value_is_meaning",
    "C13_circular_iff_no_meaning",
    "C13_acyclic_no_error",
    "C13_ring_detected"
   ],
   "note": "Python's recursion limit is not modelled; expressions only catch AttributeError"
  },
  {
   "property": "C14",
   "status": "proved",
   "theorems": [
    "C14_schedule_expands"
   ],
   "note": ""
  },
  {
   "property": "C15",
   "status": "proved",
   "theorems": [
    "C15_negative_numbers",
    "C15_bad_numbers",
    "C15_pack",
    "C15_labels",
    "C15_positions_cover",
    "C15_positions_distinct",
    "C15_unpack",
    "C15_dm8_pack_refuted",
    "C15_dm8_values_refuted",
    "C15_delta_applied",
    "C15_delta_missing"
   ],
   "note": "packing of DM 8 refuted (uses DM 9's command)"
  },
  {
   "property": "C16",
   "status": "proved",
   "theorems": [
    "C16_grid_search_applies_best",
    "C16_every_pair_is_tried",
    "C16_empty_grid_rejected",
    "C16_parallel_image_refuted"
   ],
   "note": "the image stored by the parallel branch is refuted"
  },
  {
   "property": "C17",
   "status": "proved",
   "theorems": [
    "C17_planned_follows_schedule",
    "C17_relative_entry_needs_grid_search"
   ],
   "note": ""
  },
  {
   "property": "C18",
   "status": "proved",
   "theorems": [
    "C18_when",
    "C18_cull",
    "C18_no_cull_changes_nothing",
    "C18_cull_without_relinearisation_refuted",
    "C18_second_cull_refuted",
    "C18_dark_jacobian"
   ],
   "note": "re-culling an already culled Jacobian and culling without relinearisation refuted by witnesses"
  },
  {
   "property": "C19",
   "status": "proved",
   "theorems": [
    "C19_each_mode_weighted_once",
    "C19_used_jacobian",
    "C19_right_after_relinearisation",
    "C19_correct_only_for_trivial_weights",
    "C19_weights_compound_refuted"
   ],
   "note": "Title claim refuted (weights compound between relinearisations); the exact power, and correctness right after a relinearisation, proved for every schedule."
  },
  {
   "property": "C20",
   "status": "proved",
   "theorems": [
    "C20_zero_iterations_refuted",
    "C20_start_outside_limits_refuted"
   ],
   "note": "For unconstrained mirrors staying in range, and DM8/9 always; constrained mirrors: exact step relation and the C21 specification. Nitr=0 and out-of-range start refuted."
  },
  {
   "property": "C21",
   "status": "proved",
   "theorems": [
    "C21_every_actuator_as_prescribed",
    "C21_prescription_unique",
    "C21_dead_actuators_are_zero",
    "C21_voltages_within_limits",
    "C21_tied_pairs_are_equal",
    "C21_other_commands_unchanged",
    "C21_limits_with_bias_refuted",
    "C21_chained_ties_refuted",
    "C21_dead_and_pinned_refuted",
    "C21_dead_list_read_once_refuted"
   ],
   "note": "bound with bias, chained ties, dead+pinned, dead list cached: refuted by witnesses"
  },
  {
   "property": "C22",
   "status": "proved",
   "theorems": [
    "C22_second_call_changes_nothing",
    "C22_history",
    "C22_idempotent_after_any_history",
    "C22_large_bias_refuted",
    "C22_pin_list_bounded_refuted"
   ],
   "note": "duplicates in the pin list grow without bound (refuted boundedness); large bias refuted"
  },
  {
   "property": "C23",
   "status": "proved",
   "theorems": [
    "C23_surface_orientation",
    "C23_poke_cube_orientation",
    "C23_other_keywords_rejected",
    "C23_bijection",
    "C23_distinct"
   ],
   "note": ""
  },
  {
   "property": "C24",
   "status": "proved",
   "theorems": [
    "C24_heights_are_multiples_of_the_step",
    "C24_error_bounds",
    "C24_methods_accepted"
   ],
   "note": ""
  },
  {
   "property": "C25",
   "status": "proved",
   "theorems": [
    "C25_subband_weights",
    "C25_wavelength_weights_in_subband",
    "C25_centres_symmetric",
    "C25_centres_span_band",
    "C25_merged_list_covers",
    "C25_merged_list_sorted",
    "C25_merged_total_at_least",
    "C25_merged_weights_exact",
    "C25_final_weights_total",
    "C25_full_band_is_trapezoid_grid",
    "C25_close_wavelengths_refuted"
   ],
   "note": "Sum >= 1 always, = 1 when distinct wavelengths are > 10 pm apart; unrestricted claim refuted."
  },
  {
   "property": "C26",
   "status": "proved",
   "theorems": [
    "C26_one_order_accepted_refuted",
    "C26_piston_not_first_refuted",
    "C26_order_quirk_refuted"
   ],
   "note": "With piston listed first; other orders are refuted (rejected, or piston dropped)."
  },
  {
   "property": "C27",
   "status": "proved",
   "theorems": [
    "C27_spatial_weight",
    "C27_weight_vector",
    "C27_single_annulus",
    "C27_last_annulus_wins_refuted"
   ],
   "note": "Exact weight formula for every grid and annulus list; 'last annulus wins' refuted."
  },
  {
   "property": "C28",
   "status": "proved",
   "theorems": [
    "C28_terminates",
    "C28_result",
    "C28_exception",
    "C28_crop_keeps_transmission",
    "C28_first_ring_lost_refuted",
    "C28_both_masks"
   ],
   "note": "Termination, exact result, exact exception condition, conservation for non-negative masks; loss of the unchecked first ring refuted."
  },
  {
   "property": "C29",
   "status": "proved",
   "theorems": [
    "C29_accepts_exactly",
    "C29_canonical",
    "C29_idempotent",
    "C29_accepted_are_dispatched",
    "C29_accepted_estimator_always_estimates_refuted"
   ],
   "note": "ASCII strings. Acceptance, canonical spelling, idempotence, dispatch; pwp-kf refuted."
  },
  {
   "property": "C30",
   "status": "proved",
   "theorems": [
    "C30_full_padding",
    "C30_compact_padding",
    "C30_shortest_wavelength",
    "C30_no_diffraction",
    "C30_no_dm_power_of_two_refuted",
    "C30_all_wavelengths_refuted",
    "C30_compact_sampling_refuted"
   ],
   "note": "Least power of two and termination; three refuted readings."
  },
  {
   "property": "C31",
   "status": "proved",
   "theorems": [
    "C31_restores",
    "C31_sequence",
    "C31_succeeds",
    "C31_other_dm_zeroed",
    "C31_every_dm_restored_refuted",
    "C31_exception_leaves_dm_list",
    "C31_unequal_dms_fail",
    "C31_schedule_unusable"
   ],
   "note": "flagUseJac=True (shape error) and the Kalman-filter branch are not modelled; refuted variants: other DM zeroed, exception leaves dm_ind, unequal DMs, schedules"
  },
  {
   "property": "C32",
   "status": "proved",
   "theorems": [
    "C32_phases",
    "C32_pair_same_axis",
    "C32_axis_alternates",
    "C32_square_pairs_opposite",
    "C32_rect_pairs_opposite",
    "C32_rect_error",
    "C32_rotation",
    "C32_axis_of_pair",
    "C32_rect_amplitude",
    "C32_rect_zeros",
    "C32_square_amplitude",
    "C32_coordinates"
   ],
   "note": "for surfFitMethod 'lsq' with a regular response matrix; axis 'm' (TypeError in the code) not modelled"
  },
  {
   "property": "C33",
   "status": "proved",
   "theorems": [
    "C33_least_squares",
    "C33_exact_recovery",
    "C33_dark_probe_ignored",
    "C33_collinear_refuted"
   ],
   "note": "numpy's singular-value cut-off in pinv not modelled; refuted for collinear probes"
  },
  {
   "property": "C34",
   "status": "proved",
   "theorems": [
    "C34_serial_is_weighted_sum",
    "C34_any_schedule",
    "C34_schedules_exist",
    "C34_polarisation_race_refuted",
    "C34_mask_race_refuted",
    "C34_image_depends_on_schedule_refuted",
    "C34_summed_serial",
    "C34_summed_parallel_is_serial",
    "C34_second_star_dropped_refuted",
    "C34_noise_dropped_refuted"
   ],
   "note": "every interleaving of the shared-field accesses of a FIFO thread pool; general races refuted by constructed schedules; model.full is a parameter, random noise a parameter"
  },
  {
   "property": "C35",
   "status": "proved",
   "theorems": [
    "C35_commands_restored",
    "C35_expected_image",
    "C35_on_failure",
    "C35_restored_on_failure_refuted"
   ],
   "note": "model.compact is a parameter that may raise; restoration on failure refuted"
  },
  {
   "property": "C36",
   "status": "proved",
   "theorems": [
    "C36_one_relay_reversed",
    "C36_one_relay_pixel",
    "C36_two_relays_identity",
    "C36_count_is_iteration",
    "C36_counts_add",
    "C36_bad_centering",
    "C36_rotates_interpixel",
    "C36_rotates_pixel_even",
    "C36_centre_kept_even",
    "C36_centre_moves_odd_refuted"
   ],
   "note": "exact arrays over any element type; odd-size pixel-centred claim refuted"
  },
  {
   "property": "C37",
   "status": "proved",
   "theorems": [
    "C37_inverse_even",
    "C37_inverse_even_other_order",
    "C37_round_trip_general",
    "C37_inverse_odd_refuted",
    "C37_energy"
   ],
   "note": "np.fft modelled by its defining sums over exact complex numbers; odd sizes refuted"
  },
  {
   "property": "C38",
   "status": "proved",
   "theorems": [
    "C38_zero_distance",
    "C38_composes",
    "C38_back_propagation",
    "C38_energy",
    "C38_not_square",
    "C38_plane_wave",
    "C38_linear"
   ],
   "note": "np.fft modelled by its defining sums over exact complex numbers; even and odd sizes"
  },
  {
   "property": "C39",
   "status": "proved",
   "theorems": [
    "C39_p2f_is_fourier_sum",
    "C39_p2f_not_square",
    "C39_f2p_is_fourier_sum",
    "C39_f2p_vertical_step_refuted",
    "C39_p2f_linear",
    "C39_f2p_linear"
   ],
   "note": "exact complex arithmetic; mft_f2p with different vertical step refuted"
  },
  {
   "property": "C40",
   "status": "proved",
   "theorems": [
    "C40_ties_per_dm",
    "C40_tied_response_conserved",
    "C40_tied_columns",
    "C40_self_tie_refuted",
    "C40_inactive_first_member_refuted",
    "C40_inactive_second_member_refuted",
    "C40_list_act_ele_refuted"
   ],
   "note": "self-ties, inactive members and list-typed act_ele refuted"
  },
  {
   "property": "C41",
   "status": "proved",
   "theorems": [
    "C41_serial",
    "C41_filled_unique",
    "C41_parallel_full",
    "C41_parallel_order_irrelevant",
    "C41_parallel_fails_on_culled_list_refuted",
    "C41_parallel_fails_single_dm_refuted"
   ],
   "note": "parallel assembly proved for full lists; proved to raise IndexError for culled lists / single DM (refuted)"
  },
  {
   "property": "C42",
   "status": "proved",
   "theorems": [
    "C42_surface_is_superposition",
    "C42_skipping_error",
    "C42_linear",
    "C42_bad_model_type"
   ],
   "note": ""
  },
  {
   "property": "C43",
   "status": "proved",
   "theorems": [
    "C43_offset",
    "C43_same_slice_iff_same_wavelength",
    "C43_right_grid",
    "C43_too_many_subbands",
    "C43_too_few_subbands",
    "C43_single",
    "C43_full_model_refused"
   ],
   "note": "The property is refuted in general and the exact domain is proved: slices are shared exactly by pairs sharing a wavelength, but the index is offset by Nsbp+1-2*Nwpsbp, so it is right for every pair only when Nsbp = 2*Nwpsbp-1 (or one of the two is 1); otherwise the first pair wraps to a wrong mask or the last pair raises IndexError."
  },
  {
   "property": "C44",
   "status": "proved",
   "theorems": [
    "C44_accepts",
    "C44_selects_exactly",
    "C44_centre_excluded",
    "C44_coordinates",
    "C44_default_size_even",
    "C44_covers_round",
    "C44_covers_square",
    "C44_clocked_square_cut_refuted",
    "C44_same_axis_as_image",
    "C44_odd_pixel_axis_refuted"
   ],
   "note": "np.arange/meshgrid/angle in exact arithmetic; clocked squares and odd pixel-centred sizes refuted"
  },
  {
   "property": "C45",
   "status": "proved",
   "theorems": [
    "C45_unmodulated_record_already_weighted_refuted",
    "C45_score_outside_correction_refuted"
   ],
   "note": "Proved as it holds; the aliasing (unmodulated record already weighted, ev.IincoEst overwritten) and score pixels outside the correction region are refutations."
  },
  {
   "property": "C46",
   "status": "proved",
   "theorems": [
    "C46_command_minimises_cost",
    "C46_command_unique",
    "C46_gain_never_increases_cost"
   ],
   "note": ""
  },
  {
   "property": "C47",
   "status": "proved",
   "theorems": [
    "C47_candidate_evaluation_restores"
   ],
   "note": ""
  },
  {
   "property": "C48",
   "status": "proved",
   "theorems": [
    "C48_dm8_dm9_frozen",
    "C48_bounded_optimiser_keeps_voltages_in_range",
    "C48_weighted_dm_refuted"
   ],
   "note": "refuted for DM weight other than 1"
  },
  {
   "property": "C49",
   "status": "proved",
   "theorems": [
    "C49_neighbor_rule",
    "C49_repairs_violations_refuted",
    "C49_single_actuator_refuted"
   ],
   "note": "repair of violations refuted for the pinned numpy"
  },
  {
   "property": "C50",
   "status": "proved",
   "theorems": [
    "C50_quadratic_gain_is_slope",
    "C50_fourier_gain_is_slope",
    "C50_linear_and_errors"
   ],
   "note": ""
  },
  {
   "property": "C51",
   "status": "proved",
   "theorems": [
    "C51_fit_reproduces_surface",
    "C51_asymmetric_refuted"
   ],
   "note": "refuted for influence functions without point symmetry"
  },
  {
   "property": "C52",
   "status": "proved",
   "theorems": [
    "C52_rotation_product",
    "C52_proper_rotation",
    "C52_never_outwards"
   ],
   "note": ""
  },
  {
   "property": "C53",
   "status": "proved",
   "theorems": [
    "C53_stamps_fit"
   ],
   "note": ""
  },
  {
   "property": "C54",
   "status": "proved",
   "theorems": [
    "C54_stack",
    "C54_single_actuator_refuted",
    "C54_columns_match_control_vector"
   ],
   "note": "single active actuator raises (refuted)"
  },
  {
   "property": "C55",
   "status": "proved",
   "theorems": [
    "C55_polarisation_choice",
    "C55_other_polarisations_refused",
    "C55_field_serial",
    "C55_field_any_schedule",
    "C55_images_one_star",
    "C55_images_two_stars_refuted",
    "C55_nonsquare_parallel_refuted"
   ],
   "note": "model.full is a parameter; two-star images and non-square parallel runs refuted"
  },
  {
   "property": "C56",
   "status": "proved",
   "theorems": [
    "C56_norm_serial",
    "C56_norm_any_schedule",
    "C56_hlc_race_refuted"
   ],
   "note": "full-model table only; HLC race refuted"
  },
  {
   "property": "C57",
   "status": "proved",
   "theorems": [
    "C57_round_trip_is_relay",
    "C57_odd_refuted"
   ],
   "note": "exact complex arithmetic; odd pixel-centred sizes refuted"
  },
  {
   "property": "C58",
   "status": "proved",
   "theorems": [
    "C58_correction_region",
    "C58_scoring_region",
    "C58_score_vertical_offset_refuted",
    "C58_vertical_offset_alone_fails",
    "C58_score_inside_correction",
    "C58_succeeds",
    "C58_score_in_corr",
    "C58_scoring_displaced_refuted"
   ],
   "note": "mask counts replaced by or; vertical offset refuted"
  },
  {
   "property": "C59",
   "status": "proved",
   "theorems": [
    "C59_full_linear",
    "C59_compact_linear",
    "C59_full_failure",
    "C59_compact_failure",
    "C59_full_succeeds",
    "C59_compact_succeeds"
   ],
   "note": "full_Fourier and compact_general; the pupil down-sampling routine of the compact model is a parameter assumed linear"
  },
  {
   "property": "C60",
   "status": "proved",
   "theorems": [
    "C60_full_rescales",
    "C60_compact_rescales",
    "C60_full_zero",
    "C60_compact_zero",
    "C60_vortex_zero"
   ],
   "note": "positive factors; vortex case for the compact model"
  },
  {
   "property": "C61",
   "status": "proved",
   "theorems": [
    "C61_transparent"
   ],
   "note": "compact model; equal beam sampling in the pupil planes"
  },
  {
   "property": "C62",
   "status": "proved",
   "theorems": [
    "C62_full_piston",
    "C62_compact_piston",
    "C62_intensity"
   ],
   "note": "both models"
  },
  {
   "property": "C63",
   "status": "proved",
   "theorems": [
    "C63_full_sum",
    "C63_compact_sum"
   ],
   "note": "both models"
  },
  {
   "property": "C64",
   "status": "proved",
   "theorems": [
    "C64_models_agree",
    "C64_models_agree_vortex",
    "C64_scaled_refuted",
    "C64_avc",
    "C64_unknown_name",
    "C64_surface_errors"
   ],
   "note": "agreement theorem, refutation for the scaled mask, behaviour on names and flags"
  },
  {
   "property": "C65",
   "status": "proved",
   "theorems": [
    "C65_vortex_adjoint",
    "C65_total",
    "C65_linear"
   ],
   "note": "exact arithmetic"
  },
  {
   "property": "C66",
   "status": "proved",
   "theorems": [
    "C66_full_offaxis_is_star",
    "C66_compact_offaxis_is_star",
    "C66_full_weight",
    "C66_compact_weight",
    "C66_full_unnormalised_is_shifted",
    "C66_full_zero_norm",
    "C66_wrappers_agree",
    "C66_zern_default",
    "C66_unknown_layout",
    "C66_layout_decides_scaling",
    "C66_compact_layout_scaling"
   ],
   "note": "PROPER layouts are not modelled; Zernike maps are a parameter."
  },
  {
   "property": "C67",
   "status": "proved",
   "theorems": [
    "C67_cost_value",
    "C67_gradient_at_stored_command",
    "C67_gradient_uses_stored_sensitivity",
    "C67_gradient_elsewhere_refuted",
    "C67_dm2_stop_refuted"
   ],
   "note": "HLC and a DM2 stop are excluded (the code's gradient ignores the outer transmission resp. the stop); the claim at commands other than the stored one is refuted by a witness"
  },
  {
   "property": "C68",
   "status": "proved",
   "theorems": [
    "C68_reverse_is_transpose",
    "C68_history_free",
    "C68_needs_render",
    "C68_odd_size_refuted",
    "C68_resampled_refuted",
    "C68_resampled_size",
    "C68_resampled_uniform"
   ],
   "note": "rot = 0; odd arrays and resampling refuted by witnesses"
  },
  {
   "property": "C69",
   "status": "proved",
   "theorems": [
    "C69_superposition",
    "C69_wrapper_positions",
    "C69_wrapper_fits",
    "C69_odd_dm_refuted",
    "C69_nonsquare_rejected"
   ],
   "note": "rot = 0 and upsample = 1; odd DMs refuted"
  },
  {
   "property": "C70",
   "status": "proved",
   "theorems": [
    "C70_commanded_heights",
    "C70_gradient_at_candidate",
    "C70_gradient_at_stored_command",
    "C70_regularisation_only_rescales",
    "C70_penalty_gradient_refuted"
   ],
   "note": "assumes no pinned, tied or saturated actuators, no orientation, no resampling; the claim that the result is the gradient of the returned cost is refuted by a witness"
  },
  {
   "property": "C71",
   "status": "proved",
   "theorems": [
    "C71_dm1_column_is_derivative",
    "C71_dm2_column_is_derivative",
    "C71_dead_actuator_zero"
   ],
   "note": "regularised by-peak variant (minimizeNI) not modelled; boxes smaller than the array are an approximation when the DMs are out of the pupil, and no claim is made there"
  },
  {
   "property": "C72",
   "status": "proved",
   "theorems": [
    "C72_range",
    "C72_zero_outside",
    "C72_even",
    "C72_flat_centre",
    "C72_close_to_ideal",
    "C72_exact_at_samples",
    "C72_no_taper"
   ],
   "note": "0 < alpha <= 1 and at least two table entries"
  },
  {
   "property": "C73",
   "status": "proved",
   "theorems": [
    "C73_agrees_with_maxwell",
    "C73_solution_exists",
    "C73_energy",
    "C73_split_layer",
    "C73_zero_layer",
    "C73_reference_height",
    "C73_refuses",
    "C73_fresnel"
   ],
   "note": "passive media, last medium not totally reflecting; the solver's choice of branch in total reflection is outside the hypotheses"
  },
  {
   "property": "C74",
   "status": "proved",
   "theorems": [
    "C74_table_shape",
    "C74_refuses",
    "C74_no_gain",
    "C74_reference_plane",
    "C74_entrywise",
    "C74_no_titanium_without_metal",
    "C74_bare_substrate",
    "C74_occulter_pixelwise",
    "C74_occulter_total",
    "C74_reference_indices",
    "C74_normal_dispersion",
    "C74_layers"
   ],
   "note": "exact reals; contents of the two data files are a parameter constrained to n, k > 0"
  },
  {
   "property": "C75",
   "status": "proved",
   "theorems": [
    "C75_provenance",
    "C75_histories",
    "C75_first_call",
    "C75_later_calls",
    "C75_torn_forever",
    "C75_name_tells",
    "C75_name_blind",
    "C75_compact_slices",
    "C75_full_slices",
    "C75_stale_reference"
   ],
   "note": "file names are tuples of formatted fields; exact decimal rounding"
  },
  {
   "property": "C76",
   "status": "proved",
   "theorems": [
    "C76_surface",
    "C76_surface_error",
    "C76_nearest",
    "C76_compact_mask",
    "C76_cube_slices",
    "C76_compact_frozen",
    "C76_full_previous_subband",
    "C76_first_subband_opaque",
    "C76_stale_mask_example"
   ],
   "note": "corners of boxes whole numbers; boxes inside the array; hlc.setup_fpm* (construction of influence functions) not modelled"
  },
  {
   "property": "C77",
   "status": "proved",
   "theorems": [
    "C77_script_values_kept",
    "C77_only_documented",
    "C77_fixed_defaults",
    "C77_idempotent",
    "C77_default_directories",
    "C77_default_vectors",
    "C77_voltage_limits",
    "C77_counters_reset",
    "C77_mas_conversion",
    "C77_stash",
    "C77_increments",
    "C77_list_dm_ind_refuted",
    "C77_acceptable_succeeds",
    "C77_missing_refused"
   ],
   "note": "Aliasing between arrays is not visible (values are immutable in the model); C77_list_dm_ind_refuted records the list-typed dm_ind case."
  },
  {
   "property": "C78",
   "status": "proved",
   "theorems": [
    "C78_dm1_column_is_derivative",
    "C78_dm2_column_is_derivative",
    "C78_dead_actuator_zero",
    "C78_fft_size",
    "C78_vortex_lossless",
    "C78_no_charge_is_rotation"
   ],
   "note": "exact for DMs in pupil planes or a whole-array box, and a Lyot array no larger than the FFTs; the compact model itself refines the vortex with MFTs (mft_p2v2p), which the code's Jacobian does not"
  },
  {
   "property": "C79",
   "status": "proved",
   "theorems": [
    "C79_states",
    "C79_begin",
    "C79_lens_law",
    "C79_propagation_law",
    "C79_radius_continuous",
    "C79_thin_lens",
    "C79_lens_fails",
    "C79_to_plane_then_lens_fails"
   ],
   "note": "thin-lens phase for even grids (prop_run accepts powers of two); proper.rayleigh_factor = 1 as prop_begin sets it"
  },
  {
   "property": "C80",
   "status": "proved",
   "theorems": [
    "C80_compose",
    "C80_reverse",
    "C80_fresnel_from_waist",
    "C80_fresnel_to_waist",
    "C80_plane_waves",
    "C80_tiny_steps_lost"
   ],
   "note": "between a waist and the far region, and within the Rayleigh range; between two far planes it is the composition of both through the waist"
  },
  {
   "property": "C81",
   "status": "proved",
   "theorems": [
    "C81_intensity",
    "C81_propagate_conserves"
   ],
   "note": ""
  },
  {
   "property": "C82",
   "status": "proved",
   "theorems": [
    "C82_fails",
    "C82_range",
    "C82_coverage",
    "C82_centred_coverage",
    "C82_tilted",
    "C82_tilted_example",
    "C82_magnified"
   ],
   "note": "exact arithmetic; np.linspace is its exact values; Nbeam > 0"
  },
  {
   "property": "C83",
   "status": "proved",
   "theorems": [
    "C83_numbering",
    "C83_numbering_example",
    "C83_orthonormal",
    "C83_distinct",
    "C83_rms",
    "C83_text"
   ],
   "note": "text as printed by COMPACT; eval of an equation that was cut is not modelled"
  },
  {
   "property": "C84",
   "status": "proved",
   "theorems": [
    "C84_orthonormal",
    "C84_limit",
    "C84_rms",
    "C84_example"
   ],
   "note": "exact arithmetic"
  },
  {
   "property": "C85",
   "status": "proved",
   "theorems": [
    "C85_map",
    "C85_obscured_map",
    "C85_refused",
    "C85_scalar_refused",
    "C85_custom_map",
    "C85_custom_last_mode",
    "C85_norm_maps",
    "C85_norm_maps_scale",
    "C85_example",
    "C85_custom_last_mode_example"
   ],
   "note": "exact arithmetic; proper.n is the grid of the wavefront; the division by a zero radius is excluded"
  },
  {
   "property": "C86",
   "status": "proved",
   "theorems": [
    "C86_saves",
    "C86_never_resumes",
    "C86_wavefront_unchanged",
    "C86_second_call_fails",
    "C86_file_names",
    "C86_overwritten",
    "C86_files_never_deleted",
    "C86_end_before_init",
    "C86_off_after_end",
    "C86_example"
   ],
   "note": "np.load without allow_pickle on an object array raises ValueError (numpy >= 1.16.3; requirements.txt has 2.1.3): an assumption on numpy stated in SavModel.v."
  },
  {
   "property": "C87",
   "status": "proved",
   "theorems": [
    "C87_grid_sizes",
    "C87_broadband",
    "C87_monochromatic",
    "C87_one_row_fails",
    "C87_shared_array_refuted",
    "C87_order_free",
    "C87_pairing",
    "C87_lengths_refused",
    "C87_example"
   ],
   "note": "Grid sizes are Python integers; reading the file and importing the prescription are outside the model."
  },
  {
   "property": "C88",
   "status": "proved",
   "theorems": [
    "C88_biquadratic",
    "C88_pixels",
    "C88_linear",
    "C88_border",
    "C88_border_overshoot",
    "C88_threads_partition",
    "C88_schedule_free",
    "C88_square_grid",
    "C88_points_refuted",
    "C88_oblong_grid_refuted",
    "C88_c_order",
    "C88_example"
   ],
   "note": "Real arithmetic; complex and integer dtypes of the wrapper are not modelled."
  },
  {
   "property": "C89",
   "status": "proved",
   "theorems": [
    "C89_projection",
    "C89_plain_cubic",
    "C89_surface",
    "C89_linear",
    "C89_across_pupil",
    "C89_oblong_fails",
    "C89_refused",
    "C89_example"
   ],
   "note": "FFT convolution is exact convolution over the reals; SciPy's map_coordinates enters as an interpolator exact and linear (hypotheses); FIT, file reading and prop_add_phase are not modelled."
  },
  {
   "property": "C90",
   "status": "proved",
   "theorems": [
    "C90_turns_agree",
    "C90_pixel_centred",
    "C90_stamps",
    "C90_interpixel_refuted",
    "C90_interpixel_turns",
    "C90_example"
   ],
   "note": "The resampling of the turned influence function itself (griddata, splines) is not modelled; C23 covers the orientation options."
  },
  {
   "property": "C91",
   "status": "proved",
   "theorems": [
    "C91_image",
    "C91_offset_moves_stars",
    "C91_missing_star",
    "C91_hmi",
    "C91_ee",
    "C91_ee_grows",
    "C91_hmi_bounds",
    "C91_metric_names",
    "C91_bands",
    "C91_equal_factors",
    "C91_pupil_power",
    "C91_pupil_count"
   ],
   "note": "EE disc around the source refuted; cancellation of I00 refuted for unequal factors"
  },
  {
   "property": "C92",
   "status": "proved",
   "theorems": [
    "C92_value",
    "C92_noise_terms",
    "C92_dark_not_subtracted",
    "C92_faint_lost",
    "C92_nonnegative",
    "C92_refusals",
    "C92_no_exposures"
   ],
   "note": "dark-subtracted reading refuted"
  },
  {
   "property": "C93",
   "status": "proved",
   "theorems": [
    "C93_scale",
    "C93_more_actuators",
    "C93_unique",
    "C93_parallel_leaves_subset_refuted",
    "C93_wrong_length_refuted",
    "C93_single_actuator_refuted",
    "C93_nothing_chosen",
    "C93_tie_cut_refuted"
   ],
   "note": "restoration after a failed call refuted by C93_parallel_leaves_subset_refuted, C93_wrong_length_refuted, C93_single_actuator_refuted, C93_tie_cut_refuted"
  },
  {
   "property": "C94",
   "status": "proved",
   "theorems": [
    "C94_rotation_matrix",
    "C94_projection",
    "C94_edge_on",
    "C94_four_angles",
    "C94_agrees_with_proper",
    "C94_when",
    "C94_two_angles_refuted",
    "C94_render",
    "C94_render_sample",
    "C94_quarter_turn_gradient",
    "C94_tilted_gradient_refuted",
    "C94_obliquity_one_axis",
    "C94_clocking_refuted",
    "C94_centre",
    "C94_odd_centre_refuted"
   ],
   "note": "gradient of a tilted DM, clocking, odd centre and two angles refuted by C94_tilted_gradient_refuted, C94_clocking_refuted, C94_odd_centre_refuted, C94_two_angles_refuted"
  },
  {
   "property": "C95",
   "status": "proved",
   "theorems": [
    "C95_value",
    "C95_value_proper",
    "C95_shape",
    "C95_nonnegative",
    "C95_parallel_same",
    "C95_parallel_untouched",
    "C95_restored",
    "C95_again",
    "C95_no_aberration",
    "C95_single_mode_refuted",
    "C95_two_zones_refuted",
    "C95_no_polarisations_refuted",
    "C95_failure_leaves_aberration_refuted",
    "C95_second_call_refuted",
    "C95_example",
    "C95_proper_example"
   ],
   "note": "refuted cases: C95_single_mode_refuted, C95_two_zones_refuted, C95_no_polarisations_refuted, C95_failure_leaves_aberration_refuted, C95_second_call_refuted"
  },
  {
   "property": "C96",
   "status": "proved",
   "theorems": [
    "C96_column_is_derivative",
    "C96_peak_jacobian",
    "C96_hlc_peak_refuted",
    "C96_peak_is_brightest",
    "C96_estimate_normalised",
    "C96_needs_stop_at_pupil_resolution",
    "C96_interpixel_stop_displaced"
   ],
   "note": "refuted cases: C96_hlc_peak_refuted, C96_interpixel_stop_displaced, C96_needs_stop_at_pupil_resolution"
  },
  {
   "property": "C97",
   "status": "proved",
   "theorems": [
    "C97_first_call_sets_sampling",
    "C97_later_settings_ignored",
    "C97_proper_remembers_nothing",
    "C97_proper_centring",
    "C97_interpixel_ignored",
    "C97_twice",
    "C97_scale",
    "C97_gradient_turned",
    "C97_gradient_unturned",
    "C97_gradient_turned_refuted",
    "C97_scale_refuted",
    "C97_example"
   ],
   "note": "refuted cases: C97_scale_refuted, C97_gradient_turned_refuted"
  },
  {
   "property": "C98",
   "status": "proved",
   "theorems": [
    "C98_library",
    "C98_placed",
    "C98_square",
    "C98_yshift_ignored",
    "C98_odd_grid_refuted",
    "C98_quadratic_resampled",
    "C98_border_refuted",
    "C98_written",
    "C98_written_needs_scale",
    "C98_amplitude_fails",
    "C98_one_coordinate",
    "C98_kind_required",
    "C98_quarter_turn",
    "C98_rotate_keywords_fail",
    "C98_rotate_threads_refuted",
    "C98_examples_refuted"
   ],
   "note": "refuted cases: C98_odd_grid_refuted, C98_border_refuted, C98_rotate_threads_refuted, C98_examples_refuted, C98_amplitude_fails, C98_one_coordinate, C98_rotate_keywords_fail"
  },
  {
   "property": "C99",
   "status": "proved",
   "theorems": [
    "C99_value",
    "C99_value_complex",
    "C99_same_sample",
    "C99_border",
    "C99_library_agrees",
    "C99_library_refuted",
    "C99_complex_border",
    "C99_complex_border_refuted",
    "C99_unit",
    "C99_conserve_refuted",
    "C99_uniform_refuted",
    "C99_linear",
    "C99_size",
    "C99_empty_refuted",
    "C99_quick",
    "C99_pixellate_size",
    "C99_pixel_mtf",
    "C99_pixellate_uniform",
    "C99_example"
   ],
   "note": "refuted cases: C99_library_refuted, C99_complex_border_refuted, C99_conserve_refuted, C99_uniform_refuted, C99_empty_refuted, C99_pixellate_size, C99_pixel_mtf (odd sizes)"
  },
  {
   "property": "C100",
   "status": "proved",
   "theorems": [
    "C100_rms",
    "C100_spectrum",
    "C100_spectrum_turned",
    "C100_turned_example",
    "C100_zero_mean",
    "C100_band",
    "C100_amplitude",
    "C100_applied",
    "C100_file",
    "C100_mirror_sign_refuted",
    "C100_odd_mean",
    "C100_quarter_turn_refuted",
    "C100_rotation_refuted",
    "C100_max_frequency_refuted"
   ],
   "note": "refuted cases: C100_mirror_sign_refuted, C100_odd_mean, C100_quarter_turn_refuted, C100_rotation_refuted, C100_max_frequency_refuted"
  },
  {
   "property": "C101",
   "status": "proved",
   "theorems": [
    "C101_ellipse",
    "C101_samples",
    "C101_off_grid",
    "C101_no_radius",
    "C101_aperture",
    "C101_circular",
    "C101_babinet",
    "C101_odd_grid_refuted",
    "C101_annular",
    "C101_annular_size",
    "C101_dm_stop",
    "C101_dm_stop_refuted",
    "C101_dm_stop_history"
   ],
   "note": "refuted cases: C101_off_grid, C101_no_radius, C101_odd_grid_refuted, C101_dm_stop_refuted, C101_dm_stop_history"
  },
  {
   "property": "C102",
   "status": "proved",
   "theorems": [
    "C102_value",
    "C102_one_value",
    "C102_range",
    "C102_aperture",
    "C102_turns_opposite",
    "C102_turns_same_refuted",
    "C102_sides_refuted",
    "C102_sides_example",
    "C102_polygon_agrees",
    "C102_polygon_columns",
    "C102_polygon_last_column_refuted",
    "C102_polygon_right_refuted",
    "C102_polygon_example"
   ],
   "note": "refuted cases: C102_turns_same_refuted, C102_sides_refuted, C102_polygon_last_column_refuted, C102_polygon_right_refuted"
  },
  {
   "property": "C103",
   "status": "proved",
   "theorems": [
    "C103_value",
    "C103_one_value",
    "C103_range",
    "C103_clear",
    "C103_dark",
    "C103_order",
    "C103_clocking",
    "C103_errors",
    "C103_struts_reach",
    "C103_short_struts_refuted",
    "C103_odd_refuted",
    "C103_zero_width_refuted",
    "C103_zero_width_example",
    "C103_smooth_value",
    "C103_smooth_range",
    "C103_smooth_inside",
    "C103_smooth_outside",
    "C103_smooth_unmoved_refuted",
    "C103_example"
   ],
   "note": "refuted cases: C103_short_struts_refuted, C103_odd_refuted, C103_zero_width_refuted, C103_smooth_unmoved_refuted"
  },
  {
   "property": "C104",
   "status": "proved",
   "theorems": [
    "C104_value",
    "C104_one_value",
    "C104_range",
    "C104_same_hull",
    "C104_dark",
    "C104_few",
    "C104_example",
    "C104_closed_example",
    "C104_collinear_refuted",
    "C104_collinear_example"
   ],
   "note": "refuted case: C104_collinear_refuted"
  },
  {
   "property": "C105",
   "status": "proved",
   "theorems": [
    "C105_value",
    "C105_even",
    "C105_centre",
    "C105_eighth_order",
    "C105_range",
    "C105_applied",
    "C105_meters",
    "C105_yaxis",
    "C105_round",
    "C105_half_width_refuted",
    "C105_odd_refuted",
    "C105_errors",
    "C105_example"
   ],
   "note": "refuted cases: C105_half_width_refuted, C105_odd_refuted"
  },
  {
   "property": "C106",
   "status": "proved",
   "theorems": [
    "C106_operations",
    "C106_divide_undoes",
    "C106_polar",
    "C106_sum",
    "C106_odd_sum_refuted",
    "C106_complex",
    "C106_units",
    "C106_radius",
    "C106_to_focus",
    "C106_example"
   ],
   "note": "refuted case: C106_odd_sum_refuted"
  },
  {
   "property": "C107",
   "status": "proved",
   "theorems": [
    "C107_same",
    "C107_value",
    "C107_example",
    "C107_odd",
    "C107_errors"
   ],
   "note": "refuted case: C107_odd"
  },
  {
   "property": "C108",
   "status": "proved",
   "theorems": [
    "C108_stops",
    "C108_terminates",
    "C108_never_worse",
    "C108_finds",
    "C108_finds_example",
    "C108_surface_refuted",
    "C108_surface",
    "C108_mirror",
    "C108_unit",
    "C108_unit_example",
    "C108_poke"
   ],
   "note": "refuted case: C108_surface_refuted"
  }
 ]
}