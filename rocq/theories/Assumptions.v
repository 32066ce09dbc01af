(** Print Assumptions for all the property theorems, one list per file (generated by tools/gen_manifest.py). *)
From Verif Require Import AlignEllipseProps AlignFitProps AlignMarkerProps AlignMiscProps AlignPreProps AlignShiftProps AlignShiftsProps AlignXcProps AstraInputProps BackendsGeomProps BackendsProps ConeBeamEtaProps ConeBeamFitProps ConeBeamInitProps ConeBeamProps ConeBeamTuneProps DataTermsNdProps DataTermsProps DenoiseProps DtypesProps DwtProps EmConvProps FbpFilterProps FiltersBasisProps FiltersProps FirstOrderProps FourierOpProps GeometryDefaultsProps GeometryMoreProps GeometryProps GeometryVolProps GhostScaleProps KlPdhgProps KlResidualProps LipschitzProps MarginProps MasksProps MuraProps NuclearProps OperatorsLayoutProps OperatorsMoreProps OperatorsProps ParamTuningProps PdhgConvProps PdhgDataProps PdhgExistProps PdhgSeqProps PhaseProps PhysicsAttProps PhysicsBeamProps PhysicsProps ProcMiscProps ProcPostProps ProcPreProps ProjCtorProps ProjectorsProps PropFilterProps RegularizersProps RegularizersWaveProps RotScaleProps RotateProps SartConvProps SartTolProps SirtTermsProps SkimageProps SolverObjProps SolversConvProps SolversEMProps SolversOptProps SolversProps StructIllumProps TestingProps TuningRunProps TvProps WaveletsProps XraylibProps.
Definition of_AlignEllipseProps :=
  (@C77_points_on_ellipse,
   @C77_covered,
   @C77_extremes_aligned,
   @C77_extremes_refuted,
   @C78_returned,
   @C78_exact,
   @C78_tilted_refuted,
   @C79_exact_centre,
   @C133_half_tilt_refuted,
   @C133_tilt_wrong_refuted).
Print Assumptions of_AlignEllipseProps.
Definition of_AlignFitProps :=
  (@C74_refine_interior,
   @C74_vertex_is_maximum,
   @C74_flat_error,
   @C74_bad_lengths,
   @C74_vertex_value,
   @C74_vertex_value_refuted,
   @C74_exact_parabola,
   @C132_bad_lengths,
   @C132_in_range,
   @C132_interior_minimum,
   @C132_fine_range_refuted,
   @C83_given_coordinates,
   @C83_default_coordinates,
   @C83_three_by_three,
   @C83_grid_refuted).
Print Assumptions of_AlignFitProps.
Definition of_AlignMarkerProps :=
  (@C139_symmetric,
   @C139_range,
   @C139_disk_pixel,
   @C139_even_sampling_refuted,
   @C139_tracks,
   @C139_centre_even,
   @C139_odd_size_refuted).
Print Assumptions of_AlignMarkerProps.
Definition of_AlignMiscProps :=
  (@C138_same_place,
   @C138_methods_agree,
   @C138_unknown_method,
   @C138_wrong_dimension,
   @C138_large_displacement_refuted).
Print Assumptions of_AlignMiscProps.
Definition of_AlignPreProps :=
  (@C204_derivative,
   @C204_no_derivative,
   @C204_two_dimensional,
   @C204_default_even_refuted,
   @C204_profile,
   @C204_masked_profile).
Print Assumptions of_AlignPreProps.
Definition of_AlignShiftProps :=
  (@C75_padded_volume,
   @C75_padded_line,
   @C75_odd_rfft_refuted,
   @C75_single_row_refuted,
   @C75_stack_last_refuted,
   @C131_default_fails_refuted,
   @C131_finds_shift,
   @C75_vector_refuted).
Print Assumptions of_AlignShiftProps.
Definition of_AlignShiftsProps :=
  (@C80_filter_images,
   @C80_filter_lines_refuted,
   @C76_returned,
   @C76_sorted_scans,
   @C76_unsorted_refuted,
   @C76_accum_drifts,
   @C130_centre_of_rotation,
   @C130_odd_width_refuted,
   @C134_pairs_are_opposite,
   @C134_full_turn,
   @C134_descending_refuted,
   @C135_centre_of_mass,
   @C135_jitter).
Print Assumptions of_AlignShiftsProps.
Definition of_AlignXcProps :=
  (@C75_finds_shift).
Print Assumptions of_AlignXcProps.
Definition of_AstraInputProps :=
  (@C214_volume_as_is,
   @C214_volume_iff_count,
   @C214_fp_errors,
   @C214_single_needs_projectors,
   @C214_wrong_order_refuted,
   @C214_sinogram_as_is,
   @C214_sinogram_2d_only,
   @C214_sinogram_3d_only,
   @C214_wrong_width,
   @C214_line_2d,
   @C214_line_round_trip_2d,
   @C214_line_3d,
   @C214_line_round_trip_3d_refuted,
   @C214_round_trip_2d,
   @C214_round_trip_3d_direct,
   @C214_round_trip_3d_traditional_refuted,
   @C214_example,
   @C215_at_least,
   @C215_unit,
   @C215_value,
   @C215_integer_ratio,
   @C215_monotone,
   @C215_fraction_lost_refuted).
Print Assumptions of_AstraInputProps.
Definition of_BackendsGeomProps :=
  (@C108_direct_leaves_geometry,
   @C108_given_shape_untouched,
   @C108_mutates_geometry_refuted,
   @C108_stale_detector,
   @C108_projection_shape,
   @C108_projection_shape_3d,
   @C110_vectors_agree_iff,
   @C110_direct_covers,
   @C110_traditional_width,
   @C110_direct_detector_covers,
   @C110_traditional_detector_refuted,
   @C110_unit_voxels,
   @C55_shape,
   @C55_padding,
   @C55_monotone,
   @C55_transparent,
   @C55_range,
   @C55_multiplicative,
   @C55_angle_zero).
Print Assumptions of_BackendsGeomProps.
Definition of_BackendsProps :=
  (@C54_no_temporary_leak,
   @C52_no_double_free,
   @C52_no_leak,
   @C52_dispose_frees_all,
   @C53_reinit_leaks,
   @C53_reinit_leaks_forever,
   @C53_reinit_frees_refuted,
   @C52_failed_creation_refuted,
   @C52_dispose_fresh_raises,
   @C109_single_angle,
   @C109_all_angles,
   @C109_negative_index,
   @C109_negative_index_refuted,
   @C109_direct_overrun_refuted,
   @C109_out_of_range,
   @C109_direct_bad_data).
Print Assumptions of_BackendsProps.
Definition of_ConeBeamEtaProps :=
  (@C137_angle_range,
   @C137_eta,
   @C137_coincident_error,
   @C137_swapped_error,
   @C137_rotation,
   @C137_small_eta_refuted,
   @C137_orbit_centre,
   @C136_origin,
   @C162_voxel_is_one_pixel,
   @C162_volume_extent).
Print Assumptions of_ConeBeamEtaProps.
Definition of_ConeBeamFitProps :=
  (@C136_fit_recovers,
   @C136_symmetric_orbits).
Print Assumptions of_ConeBeamFitProps.
Definition of_ConeBeamInitProps :=
  (@C209_calibration,
   @C209_upright,
   @C209_wrong_order,
   @C209_shapes,
   @C209_errors,
   @C209_centres,
   @C209_axis_refuted,
   @C209_size_refuted,
   @C209_fit_errors,
   @C209_no_distance,
   @C209_tilted_refuted).
Print Assumptions of_ConeBeamInitProps.
Definition of_ConeBeamProps :=
  (@C81_detector_frame,
   @C81_source,
   @C81_centred,
   @C81_integer_R_refuted,
   @C82_update,
   @C82_unknown_field,
   @C82_small_update_refuted,
   @C82_json_round_trip,
   @C82_saved,
   @C82_unsavable_refuted,
   @C82_several_instances,
   @C82_wrong_class_refuted,
   @C82_half_loaded_refuted,
   @C82_tuning).
Print Assumptions of_ConeBeamProps.
Definition of_ConeBeamTuneProps :=
  (@C164_tune_in_range,
   @C164_tune_other_fields,
   @C164_tune_in_turn,
   @C164_tune_errors,
   @C164_tune_recovers,
   @C164_fine_tuning_refuted,
   @C164_refit_same,
   @C164_origin_kept_refuted).
Print Assumptions of_ConeBeamTuneProps.
Definition of_DataTermsNdProps :=
  (@C119_l2_norm,
   @C119_kl_norm,
   @C119_l1_norm_1d,
   @C119_l1_norm_2d_refuted,
   @C119_l1_norm_3d_refuted,
   @C119_l1_norm_2d,
   @C120_l1_gap_nonneg,
   @C120_l1_gap_zero,
   @C120_l2_true_gap,
   @C120_l2_gap_refuted,
   @C120_no_data).
Print Assumptions of_DataTermsNdProps.
Definition of_DataTermsProps :=
  (@C10_l2_dual_prox,
   @C10_l2_primal_prox,
   @C10_l2_moreau,
   @C10_l2_no_data,
   @C11_wl2_dual_prox,
   @C11_wl2_dual_zero_weight,
   @C11_wl2_primal_prox,
   @C11_wl2_residual_norm,
   @C12_l1_dual_prox,
   @C12_l1_primal_prox,
   @C12_l12_dual_projection,
   @C13_KL_dual_prox,
   @C13_KL_dual_below_one,
   @C13_KL_primal_prox,
   @C14_Huber_dual_prox,
   @C14_Huber_group_bounded,
   @C14_Huber_primal_raises,
   @C15_l2b_dual_prox,
   @C15_l2b_primal_refuted,
   @C15_l1b_primal_refuted,
   @C15_l1b_dual_prox_unit_sigma,
   @C15_l1b_dual_refuted,
   @C16_huber_norm_refuted,
   @C16_huber_norm_negative_refuted,
   @C17_residual_value,
   @C17_residual_masked_out,
   @C17_residual_mask_noninterference,
   @C17_slice_residual,
   @C17_slice_prox,
   @C18_dual_step_background,
   @C18_l2_dual_step,
   @C18_primal_background_refuted,
   @C18_gap_background_once,
   @C18_gap_background_refuted).
Print Assumptions of_DataTermsProps.
Definition of_DenoiseProps :=
  (@C168_converges,
   @C168_identity_steps,
   @C168_unique,
   @C168_nonexpansive,
   @C168_exact_start_kept,
   @C168_flat_unchanged,
   @C168_two_weights_refuted,
   @C168_not_2d_refuted,
   @C168_weight_in_range).
Print Assumptions of_DenoiseProps.
Definition of_DtypesProps :=
  (@C205_sirt,
   @C205_mlem,
   @C205_pdhg,
   @C205_fista,
   @C205_lipschitz,
   @C205_floating,
   @C205_counts_refuted,
   @C205_mlem_integer_operator_refuted,
   @C205_sart,
   @C205_sart_residual,
   @C205_sart_residual_refuted).
Print Assumptions of_DtypesProps.
Definition of_DwtProps :=
  (@C189_default_refuted,
   @C189_documented_modes_refuted,
   @C189_periodization_shape,
   @C189_other_modes_larger,
   @C190_perfect_reconstruction,
   @C190_orthogonal_banks,
   @C190_adjoint,
   @C190_orthogonal,
   @C191_dwl_prox,
   @C191_varying_weight_refuted).
Print Assumptions of_DwtProps.
Definition of_EmConvProps :=
  (@C160_mlem_converges,
   @C160_guard_inactive,
   @C160_mlem_converges_unconditionally).
Print Assumptions of_EmConvProps.
Definition of_FbpFilterProps :=
  (@C208_names,
   @C208_response,
   @C208_rfft_agrees,
   @C208_rfft_refuted,
   @C208_ram_lak,
   @C208_mirror,
   @C208_positive,
   @C208_injective).
Print Assumptions of_FbpFilterProps.
Definition of_FiltersBasisProps :=
  (@C61_contiguous,
   @C61_terminates,
   @C61_partition_below,
   @C61_disjoint,
   @C61_partition_of_unity,
   @C61_cover_refuted,
   @C61_no_growth_never_covers,
   @C61_default_covers,
   @C113_orthogonal,
   @C113_spans,
   @C114_first_use,
   @C114_reuse_iff,
   @C114_reuse_refuted,
   @C115_optimal,
   @C115_basis_admissible).
Print Assumptions of_FiltersBasisProps.
Definition of_FiltersProps :=
  (@C59_power_of_two,
   @C59_large_enough,
   @C59_smallest,
   @C59_no_wraparound,
   @C60_wrong_length,
   @C60_is_circular_convolution,
   @C60_is_linear_convolution,
   @C60_all_pass,
   @C60_linear_in_filter,
   @C60_rfft_agrees,
   @C60_many_filters,
   @C60_fbp_always_applies,
   @C60_fbp_scaling,
   @C60_given_filter,
   @C60_imaginary_filter_dropped,
   @C62_round_trip_alternates,
   @C62_shifted_round_trip,
   @C62_round_trip_refuted).
Print Assumptions of_FiltersProps.
Definition of_FirstOrderProps :=
  (@C158_sirt_explicit_rate,
   @C158_sirt_rate,
   @C158_solution_exists,
   @C158_sirt_converges,
   @C159_fista_rate,
   @C159_minimisers_are_fixed).
Print Assumptions of_FirstOrderProps.
Definition of_FourierOpProps :=
  (@C116_fourier_adjoint,
   @C116_fourier_inverse,
   @C116_fourier_isometry,
   @C116_fourier_dc,
   @C116_integer_input_refuted,
   @C117_fft_mask,
   @C117_fft_mask_positive_axes_refuted,
   @C118_default_norm_refuted,
   @C118_fft_prox,
   @C118_delta_mask,
   @C118_fractional_mask_refuted).
Print Assumptions of_FourierOpProps.
Definition of_GeometryDefaultsProps :=
  (@C210_direction,
   @C210_unknown_direction_raises,
   @C210_parallel_default,
   @C210_cone_default,
   @C210_bad_direction_raises,
   @C210_unknown_type,
   @C210_parallel_shape,
   @C210_cone_shape,
   @C210_default_format,
   @C210_format_too_short,
   @C210_sense_of_rotation,
   @C210_source_positions,
   @C210_source_none,
   @C210_source_mismatch_raises,
   @C210_rotate_mismatch_raises,
   @C210_combined_shifts,
   @C210_combine_refuses,
   @C210_combine_single_refuted,
   @C50_zero_distance).
Print Assumptions of_GeometryDefaultsProps.
Definition of_GeometryMoreProps :=
  (@C51_matching_axes_all_applied,
   @C51_one_angle_one_axis,
   @C51_tilt_rigid,
   @C51_single_axis_ignores_angles,
   @C51_single_angle_ignores_axes,
   @C51_tilt_refuted,
   @C101_slice_of_rotation,
   @C101_slice_rows,
   @C101_single_projection_ignores_index_refuted,
   @C102_get_3d_is_3d,
   @C102_get_3d_idempotent,
   @C102_get_3d_keeps_vectors,
   @C102_fanflat_refuted,
   @C103_scaled_field,
   @C103_fanflat_refuted,
   @C104_shift_rows,
   @C104_shift_read_back,
   @C104_shift_replaces,
   @C104_cor_added,
   @C105_scalar_position_many_distances_refuted,
   @C105_matching_distances_accepted).
Print Assumptions of_GeometryMoreProps.
Definition of_GeometryProps :=
  (@C48_rotate_rows,
   @C48_rotate_rigid,
   @C48_rotate_keeps_orientation,
   @C48_rotate_zero,
   @C48_rotate_composes,
   @C48_default_clockwise).
Print Assumptions of_GeometryProps.
Definition of_GeometryVolProps :=
  (@C49_volume_round_trip,
   @C49_accepts_exactly_2d_and_up,
   @C49_get_3d,
   @C49_is_3D_iff,
   @C49_extent,
   @C49_is_square_iff,
   @C50_centred_detector_cosine,
   @C50_default_cone_geometry,
   @C50_detector_distance_refuted,
   @C50_rotation_axis_shift_refuted,
   @C50_sample_points_not_pixel_centres,
   @C50_single_pixel_refuted,
   @C106_displacement_3d,
   @C106_displacement_2d,
   @C106_rotation_covariance,
   @C106_rotated_displacement,
   @C106_wrong_dimension_raises,
   @C107_data_dims,
   @C107_volume_from_data,
   @C107_projection_and_volume_agree).
Print Assumptions of_GeometryVolProps.
Definition of_GhostScaleProps :=
  (@C145_sampling_scaling_about_the_mean,
   @C145_sampling_scaling_full_is_identity).
Print Assumptions of_GhostScaleProps.
Definition of_KlPdhgProps :=
  (@C167_minimiser_exists,
   @C167_volumes_converge,
   @C167_values_converge,
   @C167_default_steps).
Print Assumptions of_KlPdhgProps.
Definition of_KlResidualProps :=
  (@C216_gradient,
   @C216_same_sign,
   @C216_default_bounded,
   @C216_mask,
   @C216_no_data,
   @C216_at_zero,
   @C216_example).
Print Assumptions of_KlResidualProps.
Definition of_LipschitzProps :=
  (@C163_pdhg_converges,
   @C163_pdhg_volume_converges,
   @C163_consistent,
   @C163_pdhg_divergence_refuted,
   @C163_fista_divergence_refuted).
Print Assumptions of_LipschitzProps.
Definition of_MarginProps :=
  (@C219_forms,
   @C219_refused,
   @C219_shape,
   @C219_subtractable,
   @C219_zero_margin_order,
   @C219_mean,
   @C219_extra_entries_refuted,
   @C219_polynomial,
   @C219_integer_refuted,
   @C219_example).
Print Assumptions of_MarginProps.
Definition of_MasksProps :=
  (@C207_shapes,
   @C207_pixels,
   @C207_buckets,
   @C207_transmission,
   @C207_range,
   @C207_range_refuted,
   @C207_one,
   @C207_twice,
   @C207_same,
   @C207_decoding,
   @C207_make,
   @C207_attributes,
   @C207_support_refuted,
   @C207_one_dimensional_refuted,
   @C207_get_mask).
Print Assumptions of_MasksProps.
Definition of_MuraProps :=
  (@C85_mura_cross_correlation_two_valued,
   @C85_mura_open_fraction,
   @C85_mura_reconstruction_is_image_plus_constant,
   @C85_mura_generated_side_not_prime_refuted,
   @C85_mura_grid_resolves_request).
Print Assumptions of_MuraProps.
Definition of_NuclearProps :=
  (@C154_nuclear_projection,
   @C154_penalty_is_sum_of_singular_values,
   @C155_tnv_projection,
   @C155_one_channel_is_tv,
   @C156_vtv_default,
   @C156_vtv_euclidean,
   @C156_vtv_weaker_at_edges,
   @C156_vtv_independent_channels,
   @C156_vtv_not_projection_refuted,
   @C156_tnv_reference_ignored_refuted,
   @C156_wavelet_reference,
   @C156_wavelet_no_reference,
   @C156_wavelet_reference_refuted,
   @C157_data_fails_refuted,
   @C157_default_axes_refuted,
   @C157_one_row).
Print Assumptions of_NuclearProps.
Definition of_OperatorsLayoutProps :=
  (@C07_padded_length,
   @C07_crop_of_pad,
   @C08_labels_complete,
   @C08_pack_unpack,
   @C08_slots,
   @C09_layout_roundtrip,
   @C09_rescale,
   @C09_svd_operator_roundtrip).
Print Assumptions of_OperatorsLayoutProps.
Definition of_OperatorsMoreProps :=
  (@C06_convolution_adjoint_flipped,
   @C06_convolution_adjoint_symmetric,
   @C06_convolution_formula,
   @C06_convolution_constants,
   @C95_convolution_absolute_refuted,
   @C95_absolute_adjoint_refuted).
Print Assumptions of_OperatorsMoreProps.
Definition of_OperatorsProps :=
  (@C01_call_and_shapes,
   @C01_explicit_direct,
   @C01_explicit_transpose,
   @C01_transposed_matrix_iff_adjoint,
   @C02_double_transpose_is_adjoint,
   @C02_double_transpose_refuted,
   @C02_double_transpose_matvec_refuted,
   @C02_matrix_projector,
   @C02_matrix_projector_adjoint,
   @C03_gradient_adjoint,
   @C03_default_axes,
   @C04_edge_defect,
   @C04_edge_adjoint_refuted,
   @C04_edge_interior,
   @C05_laplacian_self_adjoint,
   @C05_laplacian_nonpositive,
   @C05_laplacian_is_div_grad).
Print Assumptions of_OperatorsProps.
Definition of_ParamTuningProps :=
  (@C41_format_time,
   @C42_random_mask,
   @C43_k_fold_partition,
   @C44_bad_lengths,
   @C44_fit_in_range,
   @C44_interior_minimum,
   @C45_parallel_is_serial,
   @C45_failure,
   @C46_add_monoid,
   @C46_add_append,
   @C46_appended,
   @C46_average_of_sum,
   @C47_pdhg_no_tolerance,
   @C47_fista_no_tolerance,
   @C47_early_stop_refuted,
   @C47_early_stop_happens,
   @C47_sirt_previous_iterate,
   @C99_aligned_sound,
   @C99_aligned_complete,
   @C99_unaligned,
   @C100_init_kwds_refuted).
Print Assumptions of_ParamTuningProps.
Definition of_PdhgConvProps :=
  (@C150_pdhg_objective_rate).
Print Assumptions of_PdhgConvProps.
Definition of_PdhgDataProps :=
  (@C165_converges,
   @C165_with_both_limits,
   @C165_volume_converges,
   @C165_l1b_tolerance_refuted).
Print Assumptions of_PdhgDataProps.
Definition of_PdhgExistProps :=
  (@C150_pdhg_converges,
   @C151_minimiser_exists,
   @C151_with_both_limits,
   @C152_volume_converges,
   @C152_projections_converge,
   @C152_same_projections,
   @C152_injective_converges).
Print Assumptions of_PdhgExistProps.
Definition of_PdhgSeqProps :=
  (@C166_minimiser_exists,
   @C166_rate,
   @C166_volumes_converge,
   @C166_default_steps,
   @C166_lipschitz_steps).
Print Assumptions of_PdhgSeqProps.
Definition of_PhaseProps :=
  (@C91_filter_types,
   @C91_response_at_zero,
   @C91_tie_never_vanishes,
   @C91_same_derivative,
   @C149_ctf_vanishes_refuted,
   @C149_retrieval_explains_data,
   @C91_zero_distance,
   @C91_linear,
   @C91_constant_image,
   @C91_padded_total_kept,
   @C91_direct_filter_sums_to_one,
   @C91_delta_beta).
Print Assumptions of_PhaseProps.
Definition of_PhysicsAttProps :=
  (@C89_maps_are_products,
   @C89_failing_angle,
   @C89_maps_bounded,
   @C89_get_maps_in_range,
   @C89_get_maps_negative,
   @C89_last_map_refuted,
   @C89_detector_minus_one_refuted,
   @C89_detector_index,
   @C89_detector_selection_refuted,
   @C89_integer_angle_refuted,
   @C89_detectors_kept,
   @C89_volumes_accepted_iff,
   @C89_sub_angles,
   @C89_point_detector,
   @C89_out_between,
   @C92_formula,
   @C92_linear,
   @C92_density_override_leaks_refuted,
   @C92_compound_unchanged,
   @C92_name_with_density,
   @C148_density_between,
   @C148_given_density_and_name,
   @C148_unparsable,
   @C148_cross_section_between,
   @C148_density_overestimates,
   @C148_density_of_mixture_refuted,
   @C147_constructor,
   @C147_constructor_error,
   @C147_attenuation_mixture,
   @C147_attenuation_between,
   @C147_phase_shift,
   @C147_mass_fraction_refuted,
   @C147_mass_fraction_is_density,
   @C147_absent_element,
   @C147_parallax_units_refuted,
   @C147_parallax_int_refuted,
   @C147_fluo,
   @C147_compton,
   @C147_compton_no_detector,
   @C147_compton_angle,
   @C147_fluo_energy).
Print Assumptions of_PhysicsAttProps.
Definition of_PhysicsBeamProps :=
  (@C93_profile,
   @C93_small_voxels_refuted,
   @C93_single_voxel,
   @C93_shape_names,
   @C93_half_maximum).
Print Assumptions of_PhysicsBeamProps.
Definition of_PhysicsProps :=
  (@C88_convert_composes,
   @C88_convert_units,
   @C88_wavelength_law,
   @C88_convert_values,
   @C90_lines_of_family,
   @C90_lines_once_in_order,
   @C90_single_line_name_refuted,
   @C90_average_between,
   @C90_unknown_family_refuted,
   @C90_no_emission_refuted,
   @C146_detector_accepts_iff,
   @C146_array_distance_refuted,
   @C146_solid_angle_not_steradians_refuted,
   @C146_fraction_monotone,
   @C146_angle_range).
Print Assumptions of_PhysicsProps.
Definition of_ProcMiscProps :=
  (@C63_total_conserved,
   @C63_first_moment_conserved,
   @C63_profile_nonneg,
   @C63_linear,
   @C63_locality,
   @C63_stack_conserved,
   @C63_all_axes_conserved,
   @C64_point_on_both_curves,
   @C64_none_iff,
   @C64_errors,
   @C64_found,
   @C121_sharp,
   @C121_super_sampling,
   @C121_cos_taper,
   @C121_cos_taper_antitone,
   @C121_taper_end,
   @C121_shortest_side,
   @C121_cos_edge_nan_refuted,
   @C122_lag_order,
   @C122_bounded,
   @C122_autocorrelation_peak,
   @C122_profile_peak,
   @C122_profile_bounded,
   @C122_stack_swapped_refuted,
   @C122_template_matching_refuted,
   @C122_template_error).
Print Assumptions of_ProcMiscProps.
Definition of_ProcPostProps :=
  (@C73_weighted_mean,
   @C73_in_range,
   @C73_scale_invariant,
   @C73_symmetric_zero,
   @C73_shift_equivariant,
   @C73_all_axes,
   @C66_exact_decomposition,
   @C66_bounds,
   @C66_documented_identity_refuted,
   @C67_gradient_exact_1d,
   @C67_stationary_iff_minimal_1d,
   @C67_consistent_data_1d,
   @C67_spectral_norm_refuted,
   @C67_nd_raises_refuted,
   @C65_one_pair_in_unit_interval,
   @C65_stack_in_unit_interval,
   @C65_smoothed_in_unit_interval,
   @C65_smoothing_defined,
   @C65_smooth_two_refuted,
   @C65_multiple_is_one,
   @C65_identical_images_one,
   @C65_symmetric,
   @C65_threshold_range,
   @C65_threshold_antitone,
   @C65_ring_size,
   @C65_argument_checks,
   @C127_first_crossing,
   @C127_none_iff,
   @C127_no_error,
   @C127_stacked_thresholds_refuted,
   @C128_poisson_delta_method,
   @C128_poisson_no_reference,
   @C128_nonneg,
   @C128_transmission_refuted,
   @C129_nonneg,
   @C129_energy,
   @C129_rings_nonempty,
   @C129_smoothing_nan_refuted,
   @C72_weights,
   @C72_normalized,
   @C72_mask_isolates,
   @C72_defined,
   @C72_raises_refuted,
   @C72_integer_mask_refuted).
Print Assumptions of_ProcPostProps.
Definition of_ProcPreProps :=
  (@C123_pad_then_crop,
   @C123_edge_values,
   @C123_widths,
   @C71_beer_lambert_inverted,
   @C71_lower_limit,
   @C71_gain_invariant,
   @C71_cap,
   @C71_cap_then_log,
   @C71_crop,
   @C71_crop_pixel,
   @C71_antitone,
   @C71_negative_intensity_refuted,
   @C71_dark_stack_refuted,
   @C124_range,
   @C124_constant,
   @C124_integer_shift,
   @C124_zero_shift,
   @C124_zero_shift_nd,
   @C124_fft_odd_refuted,
   @C69_crop,
   @C69_total_conserved,
   @C69_mean_conserved,
   @C69_block_means,
   @C69_constant_kept,
   @C69_no_crop_refuted,
   @C70_mean_of_margins,
   @C70_constant,
   @C70_zero_right_margin_refuted,
   @C70_polynomial_recovered,
   @C68_antitone_iterations,
   @C68_below_image,
   @C68_monotone,
   @C68_affine_equivariant,
   @C68_above_minimum,
   @C68_snip,
   @C68_integer_image_refuted,
   @C68_background_from_snip,
   @C125_padding,
   @C125_filter,
   @C125_angle_axis_refuted,
   @C126_product,
   @C126_corrected,
   @C126_positive).
Print Assumptions of_ProcPreProps.
Definition of_ProjCtorProps :=
  (@C212_with_frees,
   @C212_reusable,
   @C212_nested,
   @C212_enter_failure_refuted,
   @C212_example,
   @C213_accepted,
   @C213_refused,
   @C213_fallback,
   @C213_defaults,
   @C213_psf_accepted,
   @C213_one_tap_refuted,
   @C213_kernel_1d,
   @C213_kernel_2d,
   @C213_kernel_row,
   @C213_vertical_psf_refuted,
   @C213_one_slice_refuted).
Print Assumptions of_ProjCtorProps.
Definition of_ProjectorsProps :=
  (@C56_matrix_adjoint,
   @C56_matrix_transpose,
   @C56_matrix_absolute,
   @C56_matrix_absolute_tight,
   @C57_rows_are_single_angles,
   @C57_bp_is_sum_of_angles,
   @C57_adjoint_without_psf,
   @C57_adjoint_with_psf,
   @C57_default_bp_ignores_psf,
   @C57_default_psf_refuted,
   @C57_symmetric_psf_refuted,
   @C57_three_tap_symmetric_psf,
   @C111_astra_shape,
   @C111_single_angle_refuted,
   @C111_single_angle_intensities,
   @C111_several_angles,
   @C111_xrf_shape,
   @C58_symmetric_adjoint,
   @C58_nonsymmetric_ignores_maps_and_weights,
   @C58_bp_weights_refuted,
   @C58_nonsymmetric_adjoint_uncorrected,
   @C58_no_attenuation,
   @C58_threads_unobservable,
   @C58_threaded_inside_with,
   @C58_outside_with_refuted,
   @C112_before,
   @C112_after,
   @C112_after_input,
   @C112_collapse_refuted,
   @C112_collapse_3d).
Print Assumptions of_ProjectorsProps.
Definition of_PropFilterProps :=
  (@C220_symmetric,
   @C220_fourier_pair,
   @C220_convolution,
   @C220_half_spectrum,
   @C220_half_direct,
   @C220_tie_peak,
   @C220_zero_distance,
   @C220_example).
Print Assumptions of_PropFilterProps.
Definition of_RegularizersProps :=
  (@C19_noninterference,
   @C19_limit_constraints_refuted,
   @C19_uninitialised_refuted,
   @C20_limit_projection,
   @C21_zero_limit_stationary,
   @C21_zero_limit_pushes_back,
   @C21_limit_refuted,
   @C22_gradient_row_sums,
   @C22_gradient_column_sums,
   @C22_gradient_norm,
   @C22_gradient_reflect_refuted,
   @C22_laplacian_column_sums,
   @C22_laplacian_1axis,
   @C22_laplacian_2d_refuted,
   @C23_masked_soft_threshold,
   @C23_unmasked).
Print Assumptions of_RegularizersProps.
Definition of_RegularizersWaveProps :=
  (@C96_vtv_ball,
   @C96_vtv_inside_unchanged,
   @C96_vtv_idempotent,
   @C96_vtv_projection,
   @C96_default_not_projection_refuted,
   @C97_swl_primal_refuted,
   @C97_swl_primal_always,
   @C97_l12_one_level,
   @C97_l12_one_axis,
   @C97_l12_groups_refuted,
   @C97_vl1wl_reference_refuted,
   @C98_dwl_steps_refuted,
   @C98_swl_steps_refuted,
   @C98_swl_normalized,
   @C98_dwl_one_level).
Print Assumptions of_RegularizersWaveProps.
Definition of_RotScaleProps :=
  (@C206_rotation,
   @C206_same,
   @C206_quarter_turn,
   @C206_half_turn,
   @C206_displaced,
   @C206_shapes,
   @C206_odd_refuted).
Print Assumptions of_RotScaleProps.
Definition of_RotateProps :=
  (@C217_per_projection,
   @C217_special_angles,
   @C217_range,
   @C217_linear,
   @C217_flat,
   @C217_rigid,
   @C217_rank,
   @C217_integer_refuted,
   @C217_example,
   @C218_rotation_is_interpolation,
   @C218_attenuation,
   @C218_transparent,
   @C218_angle_zero).
Print Assumptions of_RotateProps.
Definition of_SartConvProps :=
  (@C161_sart_converges,
   @C161_sart_distance,
   @C161_sart_skewed_refuted).
Print Assumptions of_SartConvProps.
Definition of_SartTolProps :=
  (@C203_no_tolerance,
   @C203_bookkeeping,
   @C203_reported_square,
   @C203_symmetric_projections,
   @C203_other_shapes_refuted,
   @C203_reported_one_angle,
   @C203_exact_volume_refuted,
   @C203_wrong_stop_refuted).
Print Assumptions of_SartTolProps.
Definition of_SirtTermsProps :=
  (@C192_weighted_converges,
   @C192_weighted_rate,
   @C192_weighted_fixed_points,
   @C192_large_weights_diverge,
   @C192_any_weights_refuted,
   @C193_band_converges,
   @C193_band_rate,
   @C193_band_fixed_points,
   @C193_within_error_unchanged_refuted,
   @C193_limit_within_error_refuted,
   @C194_kl_converges,
   @C194_kl_fixed_points,
   @C194_kl_consistent,
   @C194_any_row_sums_refuted,
   @C195_fista_rate,
   @C195_fista_fixed_points,
   @C195_large_weights_refuted).
Print Assumptions of_SirtTermsProps.
Definition of_SkimageProps :=
  (@C211_accepted,
   @C211_shape,
   @C211_shape_half,
   @C211_fp_rows,
   @C211_bp_sum,
   @C211_adjoint,
   @C211_single_angle,
   @C211_minus_one_refuted,
   @C211_voxel_size_refuted,
   @C211_one_slice_refuted,
   @C211_integer_volume_refuted,
   @C211_integer_sinogram_refuted,
   @C211_adjoint_example,
   @C211_integer_example).
Print Assumptions of_SkimageProps.
Definition of_SolverObjProps :=
  (@C196_names,
   @C196_unknown_names,
   @C196_instances,
   @C196_test_term,
   @C196_fbp,
   @C197_caller_untouched,
   @C197_solver_isolated,
   @C198_history_independent,
   @C198_floating_point,
   @C198_integer_data,
   @C198_integer_data_refuted,
   @C199_gradient_solvers,
   @C199_mlem,
   @C199_mlem_description_refuted,
   @C199_mlem_description,
   @C200_accepted,
   @C200_rejected,
   @C200_message_refuted,
   @C200_other_types,
   @C201_more_than_one,
   @C201_none_needed,
   @C201_no_primal_rejected,
   @C201_usable,
   @C201_stationary_refuted,
   @C201_nuclear_norm_refuted,
   @C201_works_iff,
   @C202_threads,
   @C202_finishes,
   @C202_same_object_refuted).
Print Assumptions of_SolverObjProps.
Definition of_SolversConvProps :=
  (@C30_sirt_monotone,
   @C30_scaling_condition,
   @C94_scaling_refuted,
   @C31_sirt_fixed_points,
   @C31_normal_equations,
   @C32_pdhg_steps,
   @C34_momentum,
   @C34_extrapolation,
   @C35_restart_refuted,
   @C35_after_restart).
Print Assumptions of_SolversConvProps.
Definition of_SolversEMProps :=
  (@C37_mlem_nonnegative,
   @C37_mlem_counts,
   @C38_mlem_likelihood,
   @C39_sart_each_row_once,
   @C39_sart_consistent_fixed,
   @C40_power_method_below_norm,
   @C40_power_method_monotone).
Print Assumptions of_SolversEMProps.
Definition of_SolversOptProps :=
  (@C33_fixed_iff_solution,
   @C33_solution_minimises,
   @C33_fixed_points_optimal,
   @C36_fista_fixed_points,
   @C36_documented_objective_refuted).
Print Assumptions of_SolversOptProps.
Definition of_SolversProps :=
  (@C24_sirt_limits,
   @C24_mlem_limits,
   @C24_pdhg_limits,
   @C24_fista_limits,
   @C24_fbp_limits,
   @C24_sart_limits,
   @C25_sirt_feasible_start,
   @C25_pdhg_feasible_start,
   @C25_fista_feasible_start,
   @C25_zero_iterations_refuted,
   @C25_sirt_early_stop_refuted,
   @C26_sirt_bookkeeping,
   @C26_mlem_bookkeeping,
   @C26_pdhg_bookkeeping,
   @C26_fista_bookkeeping,
   @C27_sirt_noninterference,
   @C27_pdhg_noninterference,
   @C27_fista_noninterference,
   @C28_mlem_leaks_refuted,
   @C29_masks_partition,
   @C29_no_test_mask).
Print Assumptions of_SolversProps.
Definition of_StructIllumProps :=
  (@C84_mura_sizes_sound_and_complete_below,
   @C84_mura_sizes_never_exceed_fov,
   @C84_mura_sizes_top_missed_refuted,
   @C84_mura_sizes_small_fov_raises_refuted,
   @C87_interval_shifts_exact,
   @C87_sequential_shifts_all,
   @C87_random_shifts_distinct_in_range,
   @C87_scalar_fov_generates_nothing_refuted,
   @C87_interval_fraction_squared_refuted,
   @C86_gi_adjoint_iff_same_masks,
   @C86_qr_same_solutions,
   @C86_qr_refused_when_masks_differ,
   @C86_qr_more_masks_than_pixels_raises_refuted,
   @C86_reorder_consistent_single,
   @C86_reorder_stack_mixes_rows_refuted,
   @C86_reorder_1d_masks_unmoved_refuted,
   @C140_transmission_range,
   @C140_transmission_contrast,
   @C140_maximum_transmittance_is_one_refuted,
   @C141_mask_collection_accepts_iff,
   @C141_buckets_times_pixels,
   @C142_pencil_beam_collection,
   @C143_fbp_lstsq_false_ignored_refuted,
   @C144_gt_adjoint,
   @C144_gt_mismatch_raises_wrong_error_refuted,
   @C144_gt_checks_volume_not_detector_refuted,
   @C144_gi_declared_shapes_2d,
   @C144_gi_declared_shape_1d_refuted,
   @C144_gt_fbp_needs_python_312_refuted,
   @C144_gi_absolute).
Print Assumptions of_StructIllumProps.
Definition of_TestingProps :=
  (@C169_result,
   @C169_raises_iff,
   @C169_noise_free,
   @C169_background,
   @C169_negative_average_refuted,
   @C169_integer_dtype_refuted,
   @C170_consistent,
   @C170_photons,
   @C170_psf_ignored_refuted,
   @C170_angles,
   @C170_angles_range,
   @C171_round_trip,
   @C171_counts,
   @C171_noise_raises_iff,
   @C171_integer_dtype_refuted,
   @C172_values,
   @C172_zero_iff,
   @C172_triangle,
   @C173_one_phase,
   @C173_threshold_refuted,
   @C173_attenuation,
   @C174_volumes,
   @C174_zero_angle_refuted,
   @C174_array_refuted,
   @C174_line_list,
   @C175_roundup,
   @C175_idempotent,
   @C176_pixel_size_refuted,
   @C176_default).
Print Assumptions of_TestingProps.
Definition of_TuningRunProps :=
  (@C177_every_mode,
   @C177_failure,
   @C177_refused,
   @C177_call,
   @C177_setters,
   @C177_setter_varkw_refuted,
   @C178_own_threads,
   @C178_executor_no_failure,
   @C178_executor_refuted,
   @C180_lcurve,
   @C180_refused,
   @C180_failure,
   @C181_rounds,
   @C181_failure,
   @C181_zero_iterations,
   @C181_mask_parameter,
   @C181_varkw_refuted,
   @C177_pool_size,
   @C179_errors,
   @C179_meaning,
   @C179_plot_refuted,
   @C179_verbose_refuted,
   @C182_mean_between,
   @C182_std_zero,
   @C182_round_deviation,
   @C182_std_range,
   @C182_round_order,
   @C183_own_mask,
   @C183_all_tasks_once,
   @C183_progress,
   @C183_terminates,
   @C183_masks,
   @C184_serial,
   @C184_parallel,
   @C184_processing_time_refuted).
Print Assumptions of_TuningRunProps.
Definition of_TvProps :=
  (@C153_tv_converges,
   @C153_smooth_converges,
   @C153_tv_edge_refuted).
Print Assumptions of_TvProps.
Definition of_WaveletsProps :=
  (@C185_perfect_reconstruction,
   @C185_when_it_runs,
   @C185_refused,
   @C185_orthogonal_banks,
   @C186_adjoint,
   @C186_padding_refuted,
   @C186_adjoint_iff,
   @C187_parseval,
   @C187_unnormalised_bounds,
   @C187_unnormalised_refuted,
   @C187_step_condition,
   @C187_edge_step_refuted,
   @C188_shift_invariant).
Print Assumptions of_WaveletsProps.
Definition of_XraylibProps :=
  (@C221_element,
   @C221_numpy_integer_refuted,
   @C221_table_first,
   @C221_refines_c148,
   @C221_table_density_refuted,
   @C221_table_density_irrelevant,
   @C221_delta_beta,
   @C221_delta_beta_given,
   @C221_curves,
   @C221_curves_unknown,
   @C221_example).
Print Assumptions of_XraylibProps.
