C01 proved
@ C01_call_and_shapes C01_explicit_direct C01_explicit_transpose C01_transposed_matrix_iff_adjoint
Any shapes; the explicit matrix is the one of the flattened operator.

C02 partial
@ C02_double_transpose_refuted C02_double_transpose_matvec_refuted C02_double_transpose_is_adjoint C02_matrix_projector C02_matrix_projector_adjoint
REFUTED: A.T.T keeps the direction flag of A.T (so it applies the adjoint, with the shape of A). Proved: what it does; and that ProjectorMatrix, which overrides the method, is right.

C03 proved
@ C03_gradient_adjoint C03_default_axes

C04 partial
@ C04_edge_adjoint_refuted C04_edge_defect C04_edge_interior
REFUTED for the default edge padding; proved: the exact defect, and adjointness for fields vanishing on the first and last samples.

C05 proved
@ C05_laplacian_self_adjoint C05_laplacian_nonpositive C05_laplacian_is_div_grad

C06 proved
@ C06_convolution_adjoint_flipped C06_convolution_adjoint_symmetric C06_convolution_formula C06_convolution_constants
Any number of dimensions.

C07 proved
@ C07_padded_length C07_crop_of_pad
Any shape and distinct axes; the wavelet transform itself (pywt) is not modelled.

C08 proved
@ C08_pack_unpack C08_labels_complete C08_slots

C09 proved
@ C09_layout_roundtrip C09_rescale C09_svd_operator_roundtrip
np.argsort and np.linalg.svd enter as contracts (sorted permutation; product of the factors is the matrix).

C95 partial
@ C95_convolution_absolute_refuted C95_absolute_adjoint_refuted
REFUTED: absolute() passes on only the shape and the kernel.

C10 proved
@ C10_l2_dual_prox C10_l2_primal_prox C10_l2_moreau C10_l2_no_data
Per-pixel, any sigma, tau > 0. Unique minimiser; conjugate defined as a least upper bound.

C11 proved
@ C11_wl2_dual_prox C11_wl2_dual_zero_weight C11_wl2_primal_prox C11_wl2_residual_norm

C12 proved
@ C12_l1_dual_prox C12_l1_primal_prox C12_l12_dual_projection

C13 proved
@ C13_KL_dual_prox C13_KL_dual_below_one C13_KL_primal_prox

C14 proved
@ C14_Huber_dual_prox C14_Huber_group_bounded C14_Huber_primal_raises

C15 partial
@ C15_l2b_primal_refuted C15_l1b_primal_refuted C15_l1b_dual_refuted C15_l2b_dual_prox C15_l1b_dual_prox_unit_sigma
REFUTED: the primal proximals of l1b and l2b are not minimisers of the documented functionals and the l1b dual one ignores sigma. Proved: l2b dual is exact, l1b dual exact for sigma = 1.

C16 partial
@ C16_huber_norm_refuted C16_huber_norm_negative_refuted
REFUTED: integer fancy indexing and missing absolute value; witnesses given.

C17 proved
@ C17_residual_value C17_residual_masked_out C17_residual_mask_noninterference C17_slice_residual C17_slice_prox

C18 partial
@ C18_dual_step_background C18_l2_dual_step C18_primal_background_refuted C18_gap_background_once C18_gap_background_refuted
REFUTED for the primal proximals (background ignored) and for the l1/Huber gap (added twice); proved for the dual step and for the l2-type and KL gaps.


C24 proved
@ C24_sirt_limits C24_mlem_limits C24_pdhg_limits C24_fista_limits C24_fbp_limits C24_sart_limits
Any operator functions, data, x0, regularisers and iteration count; limits ordered, mask arbitrary.

C25 partial
@ C25_zero_iterations_refuted C25_sirt_early_stop_refuted C25_sirt_feasible_start C25_pdhg_feasible_start C25_fista_feasible_start
REFUTED: with iterations=0, or when the tolerance is met at the first check, x0 is returned unclipped. Proved: holds whenever x0 itself respects limits and mask.

C26 proved
@ C26_sirt_bookkeeping C26_mlem_bookkeeping C26_pdhg_bookkeeping C26_fista_bookkeeping

C27 proved
@ C27_sirt_noninterference C27_pdhg_noninterference C27_fista_noninterference
Two-run theorems over arbitrary operators; PDHG for the element-wise data terms.

C28 partial
@ C28_mlem_leaks_refuted
REFUTED: MLEM back-projects the ratio of all pixels, the held-out ones included.

C29 proved
@ C29_masks_partition C29_no_test_mask

C30 proved
@ C30_sirt_monotone C30_scaling_condition
Signed matrices included.

C31 proved
@ C31_sirt_fixed_points C31_normal_equations

C32 proved
@ C32_pdhg_steps
Operator stacked with any list of regulariser blocks; relaxation in (0,1].

C33 proved
@ C33_fixed_iff_solution C33_solution_minimises C33_fixed_points_optimal
l2 data term with mask, background and limits; any list of l1, l12 (total variation) and l2 regularisers.

C34 proved
@ C34_momentum C34_extrapolation

C35 partial
@ C35_restart_refuted C35_after_restart
REFUTED: in the restart iteration the weight is (t-1)/1, which exceeds one; afterwards it is in [0,1).

C36 partial
@ C36_documented_objective_refuted C36_fista_fixed_points
REFUTED for the documented weight: in Lipschitz mode the data term is implicitly divided by L. Proved: fixed points minimise 1/2 sum sigma_i mask_i r_i^2 + w|x|_1 over the feasible set.

C37 proved
@ C37_mlem_nonnegative C37_mlem_counts

C38 proved
@ C38_mlem_likelihood

C39 proved
@ C39_sart_each_row_once C39_sart_consistent_fixed

C40 proved
@ C40_power_method_below_norm C40_power_method_monotone

C94 partial
@ C94_scaling_refuted
REFUTED: the guard replaces small row/column sums by 1, which is shorter than they are when the largest exceeds 1e5; witness diverges. C30_scaling_condition gives the safe range.

C19 partial
@ C19_noninterference C19_limit_constraints_refuted C19_uninitialised_refuted
REFUTED for the limit constraints, whose objects share the default l2 norm and overwrite each other's limit, and for objects used before initialisation. Proved for all histories of construction and initialisation of the other classes.

C20 proved
@ C20_limit_projection

C21 partial
@ C21_zero_limit_stationary C21_zero_limit_pushes_back C21_limit_refuted
REFUTED for limits other than zero: the norm adds the limit a second time. Proved for the zero limit.

C22 partial
@ C22_gradient_row_sums C22_gradient_column_sums C22_gradient_norm C22_gradient_reflect_refuted C22_laplacian_column_sums C22_laplacian_1axis C22_laplacian_2d_refuted
REFUTED for reflect padding (gradient) and for the Laplacian along two or more axes; proved for the other cases.

C23 proved
@ C23_masked_soft_threshold C23_unmasked

C96 partial
@ C96_vtv_ball C96_vtv_inside_unchanged C96_vtv_idempotent C96_vtv_projection C96_default_not_projection_refuted
REFUTED for an infinite exponent (the default over channels): feasible but not the closest point. Proved: feasibility for all nine exponent pairs, exact projection for exponents 1 and 2.

C97 partial
@ C97_swl_primal_refuted C97_swl_primal_always C97_l12_one_level C97_l12_one_axis C97_l12_groups_refuted C97_vl1wl_reference_refuted
REFUTED: primal proximal of the stationary-wavelet class always raises; the l12 version groups sub-bands of different levels for two or more axes and levels; vl1wl with a reference only works when the number of sub-bands is the number of channels plus one.

C98 partial
@ C98_dwl_steps_refuted C98_swl_steps_refuted C98_swl_normalized C98_dwl_one_level
REFUTED with four Haar levels. Proved for normalised transforms and for one decimated level.

C41 proved
@ C41_format_time
The zero padding of the digits is not modelled.

C42 proved
@ C42_random_mask

C43 proved
@ C43_k_fold_partition

C44 proved
@ C44_bad_lengths C44_fit_in_range C44_interior_minimum
Polynomial.fit on three points is modelled as exact interpolation.

C45 proved
@ C45_parallel_is_serial C45_failure
Tasks are functions of the hyper-parameter; completion order is any permutation.

C46 proved
@ C46_add_monoid C46_add_append C46_appended C46_average_of_sum

C47 partial
@ C47_pdhg_no_tolerance C47_fista_no_tolerance C47_early_stop_refuted C47_early_stop_happens C47_sirt_previous_iterate
REFUTED when the solver stops early (the loss is then zero) and for SIRT (residual of the previous iterate). Proved for PDHG and FISTA without tolerance.

C99 proved
@ C99_aligned_sound C99_aligned_complete C99_unaligned

C100 partial
@ C100_init_kwds_refuted
REFUTED: the setter accepts only one-parameter functions, so a call with additional keyword arguments always fails.

C48 proved
@ C48_rotate_rows C48_rotate_rigid C48_rotate_keeps_orientation C48_rotate_zero C48_rotate_composes C48_default_clockwise
Every row of every field; scipy's Rotation.from_rotvec is modelled by Rodrigues' formula.

C49 proved
@ C49_volume_round_trip C49_accepts_exactly_2d_and_up C49_get_3d C49_is_3D_iff C49_extent C49_is_square_iff

C50 partial
@ C50_centred_detector_cosine C50_default_cone_geometry C50_detector_distance_refuted C50_rotation_axis_shift_refuted C50_sample_points_not_pixel_centres C50_single_pixel_refuted C50_zero_distance
REFUTED as soon as the detector is not on the rotation axis: source and detector vectors are added instead of subtracted (weight 0 for magnification 2), and a shifted detector gets weights above 1. Sample points are not pixel centres. Proved for centred detectors, including every rotation of the default cone geometry.

C51 partial
@ C51_matching_axes_all_applied C51_one_angle_one_axis C51_tilt_rigid C51_single_axis_ignores_angles C51_single_angle_ignores_axes C51_tilt_refuted
REFUTED for several angles with a single axis (and one angle with several axes): only the first pair is applied. Proved when the multiplicities match.

C101 partial
@ C101_slice_of_rotation C101_slice_rows C101_single_projection_ignores_index_refuted
REFUTED for a geometry with a single projection, whose index is ignored. Proved for two or more projections.

C102 partial
@ C102_get_3d_is_3d C102_get_3d_idempotent C102_get_3d_keeps_vectors C102_fanflat_refuted
REFUTED for fan-beam geometries, which stay 2-D. Proved for all others.

C103 partial
@ C103_scaled_field C103_fanflat_refuted
REFUTED for fan-beam geometries, which always raise ValueError. Proved for all others.

C104 proved
@ C104_shift_rows C104_shift_read_back C104_shift_replaces C104_cor_added

C105 partial
@ C105_scalar_position_many_distances_refuted C105_matching_distances_accepted
REFUTED: several distances with a single position always raise ValueError. Proved for the other combinations.

C106 proved
@ C106_displacement_3d C106_displacement_2d C106_rotation_covariance C106_rotated_displacement C106_wrong_dimension_raises

C107 proved
@ C107_data_dims C107_volume_from_data C107_projection_and_volume_agree

C52 partial
@ C52_no_double_free C52_no_leak C52_dispose_frees_all C52_failed_creation_refuted C52_dispose_fresh_raises
Safety (no double free, no use after free, held handles live and distinct) is proved for every history and every pattern of failing native calls. The no-leak half is proved when no native creation fails and the geometry is not set again while projectors are held; REFUTED when a creation fails half-way (the projectors made before it are lost), and dispose() of a fresh backend raises AttributeError. See C53 for re-initialisation.

C53 partial
@ C53_reinit_leaks C53_reinit_leaks_forever C53_reinit_frees_refuted
REFUTED: the handle list is emptied before dispose() is called, so every handle held at that time stays alive after any later history (theorem C53_reinit_leaks_forever).

C54 proved
@ C54_no_temporary_leak

C55 proved
@ C55_shape C55_monotone C55_transparent C55_range C55_multiplicative C55_angle_zero C55_padding
scikit-image's rotate(order=1) enters as a hypothesis: each output sample is a combination of input samples with non-negative weights (and the identity at angle 0 for C55_angle_zero). The hypothesis is discharged for the actual rotation in C218.

C108 partial
@ C108_direct_leaves_geometry C108_given_shape_untouched C108_projection_shape C108_projection_shape_3d C108_mutates_geometry_refuted C108_stale_detector
REFUTED for the traditional ASTRA backend: a missing detector shape is written into the caller's object, which then keeps the first volume's detector. Proved for the direct backend and for geometries with a shape.

C109 partial
@ C109_single_angle C109_all_angles C109_out_of_range C109_negative_index C109_negative_index_refuted C109_direct_overrun_refuted C109_direct_bad_data
REFUTED for negative indices (projector of the next angle, or of all angles, with the geometry of the requested one) and, in the direct backend, for the index n. Proved for 0 <= i < n and for all angles.

C110 partial
@ C110_vectors_agree_iff C110_direct_covers C110_direct_detector_covers C110_traditional_width C110_unit_voxels C110_traditional_detector_refuted
REFUTED for voxel sizes other than 1: only the traditional interface divides the vectors by the voxel size, while both give the toolbox the same scaled volume extent.

C56 proved
@ C56_matrix_adjoint C56_matrix_transpose C56_matrix_absolute C56_matrix_absolute_tight

C57 partial
@ C57_rows_are_single_angles C57_bp_is_sum_of_angles C57_adjoint_without_psf C57_adjoint_with_psf C57_default_bp_ignores_psf C57_default_psf_refuted C57_symmetric_psf_refuted C57_three_tap_symmetric_psf
REFUTED as stated: with the default setting the back-projection ignores the PSF, and a symmetric PSF of five taps is not self-adjoint because of the edge padding. Proved without a PSF, for every PSF whose convolution is self-adjoint, and for symmetric three-tap PSFs of 1-D detectors. The backend's own projections are arbitrary functions.

C58 partial
@ C58_symmetric_adjoint C58_nonsymmetric_ignores_maps_and_weights C58_bp_weights_refuted C58_nonsymmetric_adjoint_uncorrected C58_no_attenuation C58_threads_unobservable C58_threaded_inside_with C58_outside_with_refuted
Adjointness in the symmetric mode and schedule independence are proved. REFUTED: the non-symmetric bp drops the detector and angle weights its own bp_angle applies, and with scikit-image and multi-threading fp outside a with statement raises AttributeError.

C111 partial
@ C111_astra_shape C111_single_angle_refuted C111_single_angle_intensities C111_several_angles C111_xrf_shape
REFUTED for shapes with an axis of length 1: the backend squeezes its result, and with intensities a single angle makes fp raise ValueError. Proved exactly when no axis has length 1.

C112 partial
@ C112_before C112_after C112_after_input C112_collapse_refuted C112_collapse_3d
REFUTED: the sum removes the detector axis that fp then indexes, so the backend is handed one row of the volume.

C59 proved
@ C59_power_of_two C59_large_enough C59_smallest C59_no_wraparound

C60 proved
@ C60_all_pass C60_is_circular_convolution C60_is_linear_convolution C60_linear_in_filter C60_rfft_agrees C60_many_filters C60_wrong_length C60_fbp_always_applies C60_fbp_scaling C60_given_filter C60_imaginary_filter_dropped
scikit-image's ramp/window responses are an arbitrary function; numpy's FFT is the exact transform.

C61 partial
@ C61_contiguous C61_terminates C61_partition_below C61_disjoint C61_partition_of_unity C61_cover_refuted C61_no_growth_never_covers C61_default_covers
REFUTED in general: the largest frequency is not covered (e.g. 4 pixels, and always without growth). Proved below it, and completely for the default growth and the padded sizes the filter uses. create_basis_wavelet is not modelled.

C62 partial
@ C62_round_trip_alternates C62_shifted_round_trip C62_round_trip_refuted
REFUTED: the getter shifts and the setter does not, so reading and writing back multiplies response k by (-1)^k. Undoing the shift makes it the identity.

C113 proved
@ C113_orthogonal C113_spans

C114 partial
@ C114_first_use C114_reuse_iff C114_reuse_refuted
REFUTED: the basis of the first width is kept, so a second width works exactly when its padded size is the same.

C115 proved
@ C115_optimal C115_basis_admissible
np.linalg.lstsq enters by its contract (minimiser); the projector, mask and smoothing rows are an arbitrary linear map.

C116 partial
@ C116_fourier_adjoint C116_fourier_inverse C116_fourier_isometry C116_fourier_dc C116_integer_input_refuted
Adjoint identity, inversion and isometry proved for all shapes, axes lists (including repeated ones) and real arrays, with np.fft as exact sums. REFUTED for integer arrays: the coefficient array is allocated with the input's element type, so the coefficients are truncated to integers.

C117 partial
@ C117_fft_mask C117_fft_mask_positive_axes_refuted
Proved for axes counted from the end (as the default). REFUTED for axes counted from the start: they index the (2, *shape) coefficient array, so the mask is built from the real/imaginary axis and misses the last listed one. Axes are assumed listed in increasing order (identity reshape).

C118 partial
@ C118_fft_prox C118_delta_mask C118_default_norm_refuted C118_fractional_mask_refuted
Proved for the l1 norm and 0/1 masks (the "delta" filter). REFUTED for the default norm (l12 raises NotImplementedError) and for fractional masks (the "exp" and "exp2" filters): the returned image is not the minimiser.

C119 partial
@ C119_l2_norm C119_kl_norm C119_l1_norm_1d C119_l1_norm_2d C119_l1_norm_2d_refuted C119_l1_norm_3d_refuted
Proved for l2 and KL, and for l1 with 1-D data. REFUTED for l1 (and the classes that inherit it): np.linalg.norm(., ord=1) is the largest column sum for 2-D data, strictly smaller than the norm whenever two columns are non-zero, and raises ValueError for 3-D data.

C120 partial
@ C120_l1_gap_nonneg C120_l1_gap_zero C120_no_data C120_l2_true_gap C120_l2_gap_refuted
Proved for l1 and 1-D data. REFUTED for l2: the norms are not squared, so the reported gap is negative at every optimal pair of the zero operator with data norm above 1.

C63 proved
@ C63_total_conserved C63_first_moment_conserved C63_profile_nonneg C63_linear C63_locality C63_stack_conserved C63_all_axes_conserved
Any number of integrated axes, both domains, any stack and any choice/order of distinct axes (the axes permutation is modelled). Exact reals; np.bincount as the sum over bins.

C64 proved
@ C64_point_on_both_curves C64_none_iff C64_errors C64_found
Curves of any length, scalar or array second line, every window given by non-negative integer limits (negative limits are not modelled).

C121 partial
@ C121_sharp C121_super_sampling C121_cos_taper C121_cos_taper_antitone C121_cos_edge_nan_refuted C121_taper_end C121_shortest_side
REFUTED for the documented defaults of the taper: taper_func='cos' with taper_target='edge' and radius_offset=0 divides by a zero taper width, all values are NaN (C121_cos_edge_nan_refuted, every shape). Proved: range, exactness inside and outside, monotonicity in the offset and in the distance whenever the taper has positive width. Euclidean ball norm.

C122 partial
@ C122_lag_order C122_bounded C122_autocorrelation_peak C122_profile_peak C122_profile_bounded C122_stack_swapped_refuted C122_template_matching_refuted C122_template_error
REFUTED for stacks (the final ifftshift also rolls the stack axis: with two images the results are swapped) and for template matching (raises for every non-square image and for 3 or more axes). Proved for single pairs of any dimensionality and both modes. Correlation by FFT taken as the exact correlation.

C68 partial
@ C68_below_image C68_above_minimum C68_antitone_iterations C68_monotone C68_affine_equivariant C68_snip C68_background_from_snip C68_integer_image_refuted
Proved for floating-point images of any number of axes, any window >= 1, any kernel_dims and iteration count. REFUTED for integer images: the kernel takes the image's dtype and the in-place division raises TypeError.

C69 partial
@ C69_crop C69_total_conserved C69_mean_conserved C69_block_means C69_constant_kept C69_no_crop_refuted
Proved with auto_crop, integer binning, any number of axes. REFUTED without auto_crop for lengths that are not multiples: skimage's block_reduce completes the last block with zeros. Fractional binnings (skimage rescale) are not modelled.

C70 partial
@ C70_mean_of_margins C70_constant C70_polynomial_recovered C70_zero_right_margin_refuted
Proved for every pair of margins with a non-zero right margin, and for polynomial backgrounds of any order (numpy's fit by its least-squares contract). REFUTED for a right margin of zero: data[..., -0:] is the whole row.

C71 partial
@ C71_beer_lambert_inverted C71_lower_limit C71_gain_invariant C71_cap C71_cap_then_log C71_crop C71_antitone C71_negative_intensity_refuted C71_dark_stack_refuted C71_crop_pixel
The stated property is proved for every stack of flats and optional 2-D dark. REFUTED extensions: negative dark-corrected intensities are mapped to the lower limit (-inf by default), and a stack of darks raises unless its length matches.

C123 proved
@ C123_pad_then_crop C123_edge_values C123_widths
All shapes, axes and the five modelled numpy.pad modes.

C124 partial
@ C124_range C124_constant C124_integer_shift C124_zero_shift C124_zero_shift_nd C124_fft_odd_refuted
Proved for the default (spatial) mode, with scipy's order-1 "nearest" interpolation. REFUTED for use_fft=True with an odd number of columns: irfftn without the shape returns one column too few, which raises.

C125 partial
@ C125_padding C125_filter C125_angle_axis_refuted
Padding and filter proved; REFUTED for an angle axis other than the second last. The wavelet transform (pywt) is not modelled.

C126 proved
@ C126_product C126_corrected C126_positive
numpy's SVD by its contract (the product of the factors is the matrix).

C65 partial
@ C65_one_pair_in_unit_interval C65_stack_in_unit_interval C65_smoothed_in_unit_interval C65_smoothing_defined C65_smooth_two_refuted C65_multiple_is_one C65_identical_images_one C65_symmetric C65_threshold_range C65_threshold_antitone C65_ring_size C65_argument_checks
Proved for every image pair, stack, taper mask and smoothing window except smooth=2. REFUTED for smooth=2: the symmetric two-point Hann window sums to zero and the whole curve is NaN. Supersampling (scipy zoom) is not modelled. The transform is the exact DFT over all axes of each image of the stack.

C66 partial
@ C66_exact_decomposition C66_bounds C66_documented_identity_refuted
REFUTED as documented: the variance map uses ddof=1, so mse = bias^2 + (R-1)/R var; equality with the documented formula holds iff all the realisations agree.

C67 partial
@ C67_gradient_exact_1d C67_stationary_iff_minimal_1d C67_consistent_data_1d C67_spectral_norm_refuted C67_nd_raises_refuted
Proved for 1-D projection data and every linear projector. REFUTED for 2-D data (the objective is half the squared spectral norm, the gradient that of the Frobenius norm) and for 3-D data (np.linalg.norm raises ValueError).

C72 partial
@ C72_weights C72_normalized C72_mask_isolates C72_defined C72_raises_refuted C72_integer_mask_refuted
Proved for absent and boolean masks, all option combinations, percentile at most 1 and one positive variance. REFUTED: all-zero variances, percentile > 1 and empty masks raise; an integer mask is used as an index array when the floor is computed.

C73 proved
@ C73_weighted_mean C73_in_range C73_scale_invariant C73_symmetric_zero C73_shift_equivariant C73_all_axes
For every axis of a volume of any dimension.

C127 partial
@ C127_first_crossing C127_none_iff C127_no_error C127_stacked_thresholds_refuted
Proved for one threshold curve. REFUTED for stacked thresholds: the already averaged FRC is averaged again to one number, so a resolution is never returned and a crossing raises IndexError.

C128 partial
@ C128_poisson_delta_method C128_poisson_no_reference C128_nonneg C128_transmission_refuted
Proved for Is/I0. REFUTED for the linearised transmission: the code's value has an extra factor Is/I0, right only where Is = I0.

C129 partial
@ C129_nonneg C129_energy C129_rings_nonempty C129_smoothing_nan_refuted
Energy balance and non-negativity for all shapes; without smoothing every returned bin is a number. REFUTED with smoothing: for 1-D signals a window of 7 points makes the last returned bin NaN (0/0 of an empty ring beyond the cut-off). Exponent power=2 only.

C74 partial
@ C74_refine_interior C74_vertex_is_maximum C74_flat_error C74_bad_lengths C74_vertex_value C74_vertex_value_refuted C74_exact_parabola
REFUTED in one part: position, range and absence of errors are proved for every interior maximum; the returned vertex value is computed from the rounded position, rounded again, and can be below the sampled maximum. Polynomial.fit is a hypothesis: the least-squares parabola.

C75 partial
@ C75_finds_shift C75_padded_volume C75_padded_line C75_odd_rfft_refuted C75_single_row_refuted C75_stack_last_refuted C75_vector_refuted
REFUTED for odd widths with the default use_rfft (sign reversed), for single-row images with sub-pixel refinement (ValueError) and for lines stacked along the last axis (IndexError); proved for every shape, displacement and image without translational symmetry otherwise, and without that condition when padded.

C76 partial
@ C76_returned C76_sorted_scans C76_unsorted_refuted C76_accum_drifts
REFUTED for unsorted angles (the inverse permutation is not applied); C76_returned says what is returned in general; right for every scan whose argsort is its own inverse, e.g. sorted scans.

C77 partial
@ C77_points_on_ellipse C77_covered C77_extremes_aligned C77_extremes_refuted
REFUTED for extremes_u of every tilted ellipse; the evaluation is proved for all ellipses.

C78 partial
@ C78_returned C78_exact C78_tilted_refuted
REFUTED for tilted ellipses whose points are not vertically centred (back-shift of the v coordinate); C78_returned gives the exact value for every ellipse.

C79 proved
@ C79_exact_centre
Up to the requested rounding; lstsq is a hypothesis: a minimiser of the squared residual.

C80 partial
@ C80_filter_images C80_filter_lines_refuted
REFUTED for lines (IndexError as soon as one shift exceeds the limit); proved for images.

C81 partial
@ C81_detector_frame C81_source C81_centred C81_integer_R_refuted
REFUTED for an integer R_pix with translate_z_to_center (the height of the source is truncated to an integer).

C82 partial
@ C82_update C82_unknown_field C82_small_update_refuted C82_json_round_trip C82_saved C82_unsavable_refuted C82_several_instances C82_wrong_class_refuted C82_half_loaded_refuted C82_tuning
REFUTED: default decimals lose small corrections, integer updates make the geometry unsavable, a wrong class raises TypeError, an incomplete document leaves a half-loaded geometry. The functional update and the round trip are proved for all fields and values.

C83 partial
@ C83_given_coordinates C83_default_coordinates C83_three_by_three C83_grid_refuted
REFUTED for default coordinates on grids other than 3 x 3 (the vertex is in units of half the grid).

C130 partial
@ C130_centre_of_rotation C130_odd_width_refuted
REFUTED for odd detector widths (sign); proved for all even widths.

C131 partial
@ C131_finds_shift C131_default_fails_refuted
REFUTED with the default pad_u=False (UnboundLocalError for every input); proved with pad_u.

C132 partial
@ C132_bad_lengths C132_in_range C132_interior_minimum C132_fine_range_refuted
REFUTED for ranges finer than the decimals.

C133 partial
@ C133_half_tilt_refuted C133_tilt_wrong_refuted
REFUTED: the offset is exact for every stack but the returned tilt is always half the true one.

C134 partial
@ C134_pairs_are_opposite C134_full_turn C134_descending_refuted
REFUTED for scans acquired in decreasing order.

C135 proved
@ C135_centre_of_mass C135_jitter
The fitted sinusoid (scipy curve_fit) is a hypothesis.

C136 partial
@ C136_fit_recovers C136_symmetric_orbits C136_origin
Missing: theta other than 0 (the code fixes it to 0) and the l1 refinements (scipy minimize). The ellipse coefficients fed to the formulas are those of the true shadows; how the ellipse fit obtains them is C78.

C137 partial
@ C137_angle_range C137_eta C137_swapped_error C137_coincident_error C137_rotation C137_small_eta_refuted C137_orbit_centre
REFUTED for |eta| <= 0.1 degree: recorded but not removed from the points.

C138 partial
@ C138_same_place C138_methods_agree C138_unknown_method C138_wrong_dimension C138_large_displacement_refuted
REFUTED only for the xc method and displacements of at least half the frame, where the registration wraps around; everything else is proved for all 3D geometries with orthonormal detector axes.

C139 partial
@ C139_symmetric C139_range C139_disk_pixel C139_even_sampling_refuted C139_tracks C139_centre_even C139_odd_size_refuted
REFUTED for even super-sampling factors (asymmetric disk) and for odd image sizes (the position is half a pixel off). The optional self-convolution of the marker is not modelled.

C85 partial
@ C85_mura_cross_correlation_two_valued C85_mura_open_fraction C85_mura_reconstruction_is_image_plus_constant C85_mura_generated_side_not_prime_refuted C85_mura_grid_resolves_request
Proved for every odd prime side and every shift, with the constants, plus the consequence for reconstruction (with transmission). REFUTED for the generator, which rounds to 4 l + 1 without requiring a prime (side 9).

C84 partial
@ C84_mura_sizes_sound_and_complete_below C84_mura_sizes_never_exceed_fov C84_mura_sizes_top_missed_refuted C84_mura_sizes_small_fov_raises_refuted
REFUTED: the largest size is missed whenever the field of view has exactly that size, and below 9 pixels an IndexError is raised. Proved: every returned size is a prime 4 l + 1 not above the field of view, and the exact set returned.

C87 partial
@ C87_interval_shifts_exact C87_sequential_shifts_all C87_random_shifts_distinct_in_range C87_scalar_fov_generates_nothing_refuted C87_interval_fraction_squared_refuted
REFUTED for a scalar field of view (documented): IndexError for every shift type; and the interval type gives fraction^2 of the buckets. Everything else proved for all 2D shapes, intervals and permutations.

C86 partial
@ C86_gi_adjoint_iff_same_masks C86_qr_same_solutions C86_qr_refused_when_masks_differ C86_qr_more_masks_than_pixels_raises_refuted C86_reorder_consistent_single C86_reorder_stack_mixes_rows_refuted C86_reorder_1d_masks_unmoved_refuted
Adjointness characterised exactly; QR equivalence for any full-rank masks (QR and inverse as contracts). REFUTED: more masks than pixels raises; with shift != 0, stacked buckets are mixed across projections and one-dimensional masks are not rolled at all.

C140 partial
@ C140_transmission_range C140_transmission_contrast C140_maximum_transmittance_is_one_refuted
REFUTED: the parameter documented as the maximum transmittance is one minus the minimum; the maximum is always 1.

C141 proved
@ C141_mask_collection_accepts_iff C141_buckets_times_pixels
For mask_dims > 0.

C142 proved
@ C142_pencil_beam_collection

C143 partial
@ C143_fbp_lstsq_false_ignored_refuted
REFUTED: with equal encoding and decoding masks use_lstsq=False is ignored.

C144 partial
@ C144_gt_adjoint C144_gt_mismatch_raises_wrong_error_refuted C144_gt_checks_volume_not_detector_refuted C144_gi_declared_shapes_2d C144_gi_declared_shape_1d_refuted C144_gt_fbp_needs_python_312_refuted C144_gi_absolute
REFUTED: a mismatch raises AttributeError, the check compares with the volume instead of the detector, the declared volume shape is wrong for 1D masks, fbp needs Python 3.12 although 3.10 is declared. Adjointness proved for every tomographic operator with an adjoint back-projection.

C145 proved
@ C145_sampling_scaling_about_the_mean C145_sampling_scaling_full_is_identity
The half-spectrum FFT of a real image is written as the full transform.

C88 proved
@ C88_convert_composes C88_convert_units C88_convert_values C88_wavelength_law
For any positive constant in place of the electron volt - inverse metre relationship.

C89 partial
@ C89_maps_are_products C89_maps_bounded C89_failing_angle C89_get_maps_in_range C89_get_maps_negative C89_volumes_accepted_iff C89_detectors_kept C89_sub_angles C89_point_detector C89_out_between C89_last_map_refuted C89_detector_minus_one_refuted C89_detector_selection_refuted C89_integer_angle_refuted C89_detector_index
Independence of the completion order proved for any number of angles. REFUTED: index -1 gives no maps, an index past the end raises nothing, get_projector_args(det_ind=-1) returns the last detector's angle with no maps and refuses slices and sequences, an integer detector angle is refused.

C90 partial
@ C90_lines_of_family C90_lines_once_in_order C90_average_between C90_single_line_name_refuted C90_unknown_family_refuted C90_no_emission_refuted
REFUTED: the name of a single line can select several, an unknown family has energy 0, a family without emission gives NaN.

C91 proved
@ C91_zero_distance C91_response_at_zero C91_tie_never_vanishes C91_filter_types C91_constant_image C91_padded_total_kept C91_linear C91_direct_filter_sums_to_one C91_same_derivative C91_delta_beta
FFT as the exact full DFT over boxes of any dimension. The TIE filter is >= 1 for delta/beta * distance * wavelength >= 0.

C92 partial
@ C92_formula C92_linear C92_name_with_density C92_compound_unchanged C92_density_override_leaks_refuted
REFUTED: with an explicit density the caller's dictionary keeps it.

C93 partial
@ C93_profile C93_single_voxel C93_shape_names C93_half_maximum C93_small_voxels_refuted
Proved when the profile spans more than a tenth of a micron. REFUTED below: a single sample point at the border gives 0 / 0.

C146 partial
@ C146_detector_accepts_iff C146_fraction_monotone C146_angle_range C146_array_distance_refuted C146_solid_angle_not_steradians_refuted
REFUTED: arrays of distances are refused, and the solid angle is a fraction of the sphere, not steradians.

C147 partial
@ C147_constructor C147_constructor_error C147_attenuation_mixture C147_attenuation_between C147_phase_shift C147_mass_fraction_is_density C147_absent_element C147_fluo C147_compton C147_compton_angle C147_fluo_energy C147_mass_fraction_refuted C147_parallax_units_refuted C147_parallax_int_refuted C147_compton_no_detector
REFUTED: the mass fraction is a density and exceeds 1; the parallax check subtracts centimetres from millimetres and skips integer distances.

C148 partial
@ C148_given_density_and_name C148_unparsable C148_density_between C148_cross_section_between C148_density_overestimates C148_density_of_mixture_refuted
REFUTED: the approximated density is the mass-weighted mean, which is at least (and in general more than) the density of the mixture. xraylib's tables are arguments.

C149 partial
@ C149_retrieval_explains_data C149_ctf_vanishes_refuted C91_tie_never_vanishes
REFUTED for the CTF filter: for every material there is a distance at which it vanishes at the Nyquist frequency. Where the filter does not vanish (always for TIE) the retrieved image explains the data exactly.

C150 proved
@ C150_pdhg_objective_rate C150_pdhg_converges
Rate on the last iterate (not on averages). Hypotheses: a primal-dual solution exists (pd_solution, C33); safe_sigma/safe_tau exclude the 1e-6 guard from changing the diagonal steps; relaxation at most 1; regularisers with the code's step sizes.

C151 proved
@ C151_minimiser_exists C151_with_both_limits
Saddle point obtained as a cluster point of the averaged iterates (Compact.v); same setting as C150.

C152 proved
@ C152_volume_converges C152_projections_converge C152_same_projections C152_injective_converges
Same setting as C150.

C153 partial
@ C153_tv_converges C153_smooth_converges C153_tv_edge_refuted
Proved for zero and periodic padding. REFUTED for the default edge padding: the transpose used by the solver is not the adjoint (C04), and on a two-pixel problem PDHG stays 1/32 above the minimum for every number of iterations.

C154 proved
@ C154_nuclear_projection C154_penalty_is_sum_of_singular_values
np.linalg.svd and np.argsort enter through their contracts (is_svd on the matrices of the array, argsort_right). Default spectral norm (l1) and default branch.

C155 proved
@ C155_tnv_projection C155_one_channel_is_tv
Same contracts as C154; channels on the first axis of the volume.

C156 partial
@ C156_vtv_default C156_vtv_euclidean C156_vtv_weaker_at_edges C156_vtv_independent_channels C156_vtv_not_projection_refuted C156_tnv_reference_ignored_refuted C156_wavelet_no_reference C156_wavelet_reference C156_wavelet_reference_refuted
REFUTED for TNV (the reference is computed and never used) and for the vectorial wavelet penalty (the step raises ValueError unless the number of channels equals the number of detail sub-bands; with one detail sub-band all channels are overwritten by the first). Proved for VTV, whose step with a reference is however not a projection.

C157 partial
@ C157_data_fails_refuted C157_default_axes_refuted C157_one_row
REFUTED: with data the nuclear-norm term raises ValueError for every dual with at least two rows, and its default axes do not exist in two-dimensional data. Proved for one row.

C158 proved
@ C158_sirt_converges C158_solution_exists C158_sirt_rate C158_sirt_explicit_rate
No regularisers, l2 data term; safe_sigma/safe_tau exclude the 1e-6 guard from changing the diagonal steps. For relaxation in (1,2) the constant of the rate is not explicit.

C159 proved
@ C159_fista_rate C159_minimisers_are_fixed
No tolerance and no momentum restart; regulariser none or one unmasked l1 term on the volume; the converse of the second part is C36.

C160 proved
@ C160_mlem_converges C160_guard_inactive C160_mlem_converges_unconditionally
Plain MLEM (no masks, no background, no upper limit, lower limit absent or not positive); strictly positive data. Either the projections stay above the guard (above_guard) or the explicit condition guard_condition on data and start.

C161 partial
@ C161_sart_converges C161_sart_distance C161_sart_skewed_refuted
Proved when every projection weighs every voxel with the same positive total (as for parallel beams covering the object; the per-projection scaling tau is then common). REFUTED without that: with two one-pixel projections (1,2) and (2,1) all SART volumes have equal voxels, so exact data of (1,0) are never approached.

C162 proved
@ C162_voxel_is_one_pixel C162_volume_extent
For phi = 0 (with phi the local scale has a further factor 1/cos phi); integer R_pix with centring excluded, as there the code truncates (C81).

C163 partial
@ C163_pdhg_converges C163_pdhg_volume_converges C163_consistent C163_pdhg_divergence_refuted C163_fista_divergence_refuted
False as stated. power_method underestimates the norm (C40), and for an operator with N unit singular values and one of 2 every start with N large (sum of squares of the rest at least 2.6e6 times the last one's square) gives at most 1.25; PDHG and FISTA then diverge for every data set that has a component along the last singular vector, although an exact solution exists. Proved: PDHG converges (rate and volumes) when the estimate is at least relaxation times an operator bound; for FISTA see C159 (fista_steps_ok, Some L).

C164 partial
@ C164_tune_in_range C164_tune_other_fields C164_tune_in_turn C164_tune_errors C164_tune_recovers C164_fine_tuning_refuted C164_refit_same C164_origin_kept_refuted
The parabola fit is the library contract (least squares). Recovery is for test values on the three-decimal grid and a residual that is a parabola over the samples. Refuted: ranges finer than half a thousandth change nothing, because every tested geometry is rounded to three decimals; the projected origin of the first fit is kept by later fits.

C165 partial
@ C165_converges C165_with_both_limits C165_volume_converges C165_l1b_tolerance_refuted
Rate and existence for every separable kind, under bounded level sets (automatic with both limits). Refuted for l1 with a background: the tolerance is divided by sigma in the dual step, so PDHG minimises a different objective (example: stays at residual 10 although the tolerance is 1); the positive theorem is for the objective with that scaled tolerance. Group data terms (l12, Huber with l2_axis) not covered; KL: C167.

C166 partial
@ C166_minimiser_exists C166_rate C166_volumes_converge C166_default_steps C166_lipschitz_steps
No boundedness assumption. Convergence of the sequence needs step sizes still admissible for a slightly larger relaxation (the default 0.95 with preconditioning; without it an estimate above 0.95 times the norm). Missing: relaxation exactly 1, a stopping tolerance, group data terms (l12, Huber with l2_axis), the l1 tolerance scaling of C165.

C167 proved
@ C167_minimiser_exists C167_volumes_converge C167_values_converge C167_default_steps
Relaxation below one (default steps proved admissible), no stopping tolerance, real arithmetic; scalar regulariser weights as in C150.

C168 partial
@ C168_converges C168_identity_steps C168_unique C168_nonexpansive C168_exact_start_kept C168_flat_unchanged C168_weight_in_range C168_two_weights_refuted C168_not_2d_refuted
REFUTED for exactly two weights and, with several weights, for images that are not 2-D: both always raise ValueError although any sequence and any image are documented. The rest is proved for l1, l1,2 and squared regularisers given as matrices (soft-thresholded wavelets are covered as the matrix of the transform); scipy's median filter is a parameter.

C169 partial
@ C169_result C169_raises_iff C169_noise_free C169_background C169_negative_average_refuted C169_integer_dtype_refuted
REFUTED for negative averages without explicit spread and for integer data types with Poisson and read-out noise (both always raise). Everything else proved for arbitrary draws.

C170 partial
@ C170_consistent C170_photons C170_angles C170_angles_range C170_psf_ignored_refuted
REFUTED for the point spread function: without attenuation volumes it is ignored. The rest is proved.

C171 partial
@ C171_round_trip C171_counts C171_noise_raises_iff C171_integer_dtype_refuted
REFUTED for integer data types (the transmission is truncated before scaling, every attenuated pixel records zero counts). Proved for floating-point ones.

C172 proved
@ C172_values C172_zero_iff C172_triangle
Root mean squares over the reals.

C173 partial
@ C173_one_phase C173_attenuation C173_threshold_refuted
REFUTED exactly at the thresholds 0.1, 0.25 and 0.5, where no material (not even air) is assigned. Proved for all other values.

C174 partial
@ C174_volumes C174_line_list C174_zero_angle_refuted C174_array_refuted
REFUTED for a detector at 0 rad (the Compton volume stays empty) and for arrays of several positions (ValueError). Proved for no position and for non-zero numbers.

C175 proved
@ C175_roundup C175_idempotent
Exact integers; dtype = int.

C176 partial
@ C176_pixel_size_refuted C176_default
REFUTED: the scale factor is computed after rescaling and is always 1, so the pixel size is 0.26 um for every field-of-view size; correct only for the stock size.

C177 partial
@ C177_every_mode C177_call C177_failure C177_refused C177_setters C177_setter_varkw_refuted C177_pool_size
REFUTED for the setters: an execution function whose only parameter collects keyword arguments is accepted and can never be called. The rest is proved for every mode and completion order.

C178 partial
@ C178_own_threads C178_executor_no_failure C178_executor_refuted
REFUTED for a caller's executor: one failing task shuts it down and every later evaluation raises RuntimeError. Proved for the tuner's own threads and, without failures, for executors.

C179 partial
@ C179_errors C179_meaning C179_plot_refuted C179_verbose_refuted
REFUTED for plot_result=True (AttributeError: methods of a single plot called on an array of plots) and for verbose without values (IndexError). The values are proved.

C180 proved
@ C180_lcurve C180_refused C180_failure
For every completion order and mode.

C181 partial
@ C181_rounds C181_zero_iterations C181_failure C181_mask_parameter C181_varkw_refuted
REFUTED for execution functions that collect keyword arguments: they could take the mask but are refused. The rest is proved; np.mean of zero rounds is not modelled as a value.

C182 proved
@ C182_mean_between C182_std_zero C182_round_deviation C182_std_range C182_round_order
Real arithmetic.

C183 proved
@ C183_own_mask C183_all_tasks_once C183_progress C183_terminates C183_masks
Interleaving model of the main thread and any number of workers; a worker reads the dictionary atomically.

C184 partial
@ C184_serial C184_parallel C184_processing_time_refuted
REFUTED for the processing time of parallel batches: tasks start during submission, before the processing time starts. The rest is proved.

C185 proved
@ C185_perfect_reconstruction C185_when_it_runs C185_refused C185_orthogonal_banks
pywt's swtn/iswtn enter through their documented filter-bank contract (DESIGN.md section 4). Real arithmetic.

C186 partial
@ C186_adjoint C186_padding_refuted C186_adjoint_iff
REFUTED for padding on demand other than constant (the default is 'edge', the docstring says 'constant') when a size is not a multiple of 2^level: then direct and adjoint never match. Proved for constant padding and for aligned sizes; exact characterisation.

C187 partial
@ C187_parseval C187_unnormalised_bounds C187_unnormalised_refuted C187_step_condition C187_edge_step_refuted
REFUTED for edge padding at three or more levels (the step bound fails on a line of 2^level + 1 samples), and unnormalised transforms are not adjoint to their inverse. The rest is proved.

C188 proved
@ C188_shift_invariant
For every bank, shift and axis.

C189 partial
@ C189_default_refuted C189_documented_modes_refuted C189_periodization_shape C189_other_modes_larger
REFUTED for the default arguments (ValueError) and for eight of the eleven documented modes. The sizes are proved.

C190 proved
@ C190_perfect_reconstruction C190_orthogonal_banks C190_adjoint C190_orthogonal
Periodization mode, sizes multiple of 2^level; pywt's dwt enters through its filter-bank contract.

C191 partial
@ C191_dwl_prox C191_varying_weight_refuted
REFUTED for weights or steps that vary: only the first entry is used. Proved for constant ones.

C192 partial
@ C192_weighted_converges C192_weighted_rate C192_weighted_fixed_points C192_large_weights_diverge C192_any_weights_refuted
Proved when relaxation * largest weight < 2. REFUTED beyond: the step sizes ignore the weights, so weights above 2/relaxation make SIRT diverge geometrically even on consistent data (the bound is sharp).

C193 partial
@ C193_band_converges C193_band_rate C193_band_fixed_points C193_within_error_unchanged_refuted C193_limit_within_error_refuted
Convergence, rate and fixed points proved with the band SIRT really uses: sqrt(local_error) divided by the pixel's row sum. REFUTED for the documented band sqrt(local_error): volumes inside it are changed (row sums above 1), deviations beyond it are left standing (row sums below 1). FISTA uses the documented band (C195).

C194 partial
@ C194_kl_converges C194_kl_fixed_points C194_kl_consistent C194_any_row_sums_refuted
Proved when relaxation times the largest inverse row sum is below 2. REFUTED without that: a one-pixel noiseless emission problem with relaxation 1, lower limit 0 and the default start alternates for ever between two volumes.

C195 partial
@ C195_fista_rate C195_fista_fixed_points C195_large_weights_refuted
Proved when relaxation * largest weight is at most 1 (Lipschitz mode: the squared norm bound times the largest weight). REFUTED beyond: FISTA diverges for larger weights.

C196 proved
@ C196_names C196_unknown_names C196_instances C196_test_term C196_fbp
Names are ASCII strings.

C197 proved
@ C197_caller_untouched C197_solver_isolated
Data terms only: regularisers are kept by reference (their state is C19).

C198 partial
@ C198_history_independent C198_floating_point C198_integer_data C198_integer_data_refuted
Proved for floating-point data, and for integer data when the background is a whole number. REFUTED otherwise: one call with integer data truncates the solver's background for all later calls.

C199 partial
@ C199_gradient_solvers C199_mlem C199_mlem_description_refuted C199_mlem_description
Without a test mask SIRT, PDHG and FISTA accept background arrays. REFUTED with one (ValueError: ambiguous truth value), REFUTED for MLEM (TypeError from its info string, whose text is moreover empty without a background).

C200 partial
@ C200_accepted C200_rejected C200_message_refuted C200_other_types
Acceptance and rejection proved. REFUTED for the message: it lists the positions of the elements that ARE regularizers.

C201 partial
@ C201_more_than_one C201_none_needed C201_no_primal_rejected C201_usable C201_stationary_refuted C201_nuclear_norm_refuted C201_works_iff
REFUTED: new stationary-wavelet objects, and Fourier/decimated-wavelet ones with a nuclear norm, pass the check and fail at the first iteration.

C202 partial
@ C202_threads C202_finishes C202_same_object_refuted
Proved for SIRT objects of different solvers (threads interleaved between assigning the data, preparing, and each pass of the loop). REFUTED for two threads calling one solver object.

C203 partial
@ C203_no_tolerance C203_bookkeeping C203_reported_square C203_symmetric_projections C203_other_shapes_refuted C203_reported_one_angle C203_exact_volume_refuted C203_wrong_stop_refuted
REFUTED: compute_residual stacks the projections on the last axis, so with a tolerance SART raises ValueError unless the number of angles equals the number of pixels (or one of them is 1), and for square sinograms it compares the transposed projections with the data: an exact volume gets a positive residual, and a wrong one can stop the iteration.

C204 partial
@ C204_derivative C204_no_derivative C204_profile C204_masked_profile C204_two_dimensional C204_default_even_refuted
Proved exactly when the padded length is even (odd number of rows with the derivative, even without) or with the complex transform. REFUTED for the defaults on an even number of rows: the inverse real transform returns one sample less, and the shifts come out too small.

C205 partial
@ C205_sirt C205_mlem C205_pdhg C205_fista C205_lipschitz C205_floating C205_counts_refuted C205_mlem_integer_operator_refuted C205_sart C205_sart_residual C205_sart_residual_refuted
Exact condition for a TypeError proved for each solver, and equality with the floating-point call otherwise. REFUTED as stated: PDHG raises TypeError for every integer sinogram (its dual has the kind of the data and is updated in place); the power method fails on integer data; cross-validation of unsigned data fails in every solver unless the test mask is unsigned; an integer starting volume fails in SIRT, MLEM and SART; MLEM with integer operator and data fails; the residuals SART reports for integer data use truncated projections.

C206 partial
@ C206_rotation C206_same C206_quarter_turn C206_half_turn C206_displaced C206_shapes C206_odd_refuted
Proved for even sizes (at least 10 after padding) when the first angular and radial harmonics of the polar spectrum do not vanish; both quarter turns give -90 degrees. REFUTED for an odd number of rows: the polar centre is one row below the zero frequency, so an image that varies along u only has an all-zero polar image and the call raises ValueError. Missing: scales other than one (the log-radius axis is not cyclic).

C207 partial
@ C207_make C207_shapes C207_pixels C207_decoding C207_buckets C207_transmission C207_range C207_range_refuted C207_one C207_twice C207_same C207_attributes C207_support_refuted C207_one_dimensional_refuted C207_get_mask
Proved for two-dimensional masks and integer binnings. REFUTED: an open mask is darkened at the border when the binning does not divide the field of view; the support keeps the old size and exceeds the new field of view; one-dimensional masks are averaged with their neighbours, so the number of buckets changes. Missing: a floating binning (skimage's rescale).

C208 partial
@ C208_names C208_response C208_rfft_agrees C208_rfft_refuted C208_ram_lak C208_mirror C208_positive C208_injective
REFUTED for Hamming and Hann: skimage's shifted windows are symmetric about (P-1)/2, not about the zero frequency, so use_rfft=True and False give different lines (a single bright pixel, every width and number of angles). Everything else proved; skimage's _get_fourier_filter is written out from its source and trusted.

C209 partial
@ C209_calibration C209_upright C209_wrong_order C209_shapes C209_errors C209_centres C209_axis_refuted C209_size_refuted C209_fit_errors C209_no_distance C209_tilted_refuted
Proved for phi = 0, or any tilt phi when the points are vertically centred on their ellipse; the rotation eta must be 0 or more than 0.1 degree and have four decimals (the code rounds it). REFUTED for a tilted detector otherwise: the height computed by fit_ellipse_parameters is wrong, and fit returns a wrong detector offset u0 from five exact points per orbit. REFUTED for shapes: a one-dimensional points_axis is broadcast and accepted; a size of shape (1, m) is tiled and always fails. Missing: unmeasured axis with a rotated detector (centres are rounded to 0.01 pixel), the l1 refinements.

C210 partial
@ C210_direction C210_unknown_direction_raises C210_parallel_default C210_cone_default C210_bad_direction_raises C210_unknown_type C210_parallel_shape C210_cone_shape C210_default_format C210_format_too_short C210_sense_of_rotation C210_source_positions C210_source_none C210_source_mismatch_raises C210_rotate_mismatch_raises C210_combined_shifts C210_combine_refuses C210_combine_single_refuted
REFUTED for one projection: combine_shifts_vu squeezes arrays of one element to zero dimensions and np.stack(axis=-2) raises. Everything else proved; a type name other than 2d/3d is accepted until a shift (or ndim) is requested (C210_unknown_type).

C211 partial
@ C211_accepted C211_shape C211_shape_half C211_fp_rows C211_bp_sum C211_adjoint C211_single_angle C211_minus_one_refuted C211_voxel_size_refuted C211_one_slice_refuted C211_integer_volume_refuted C211_integer_sinogram_refuted C211_adjoint_example C211_integer_example
Proved for every per-angle projection and smearing function (scikit-image itself is not modelled: only its shapes, scales and exceptions). REFUTED parts: index -1, voxel sizes with another number of samples, one-slice volumes, integer volumes and integer sinograms. The adjointness is conditional on scikit-image's own pair being adjoint.

C212 partial
@ C212_with_frees C212_reusable C212_nested C212_enter_failure_refuted C212_example
Proved on the native-handle model of C52-C55. REFUTED for a failure while the block is being entered (make_ready half-way). Blocks whose calls re-initialise the geometry are C53.

C213 partial
@ C213_accepted C213_refused C213_fallback C213_defaults C213_psf_accepted C213_one_tap_refuted C213_kernel_1d C213_kernel_2d C213_kernel_row C213_vertical_psf_refuted C213_one_slice_refuted
Constructor checks in the order of the code; exceptions raised by ASTRA itself or by mismatched axis shifts (C210) are outside this model. REFUTED parts: one-tap PSFs, vertical PSFs, one-slice volumes with a detector shape.

C214 partial
@ C214_volume_as_is C214_volume_iff_count C214_fp_errors C214_single_needs_projectors C214_wrong_order_refuted C214_sinogram_as_is C214_sinogram_2d_only C214_sinogram_3d_only C214_wrong_width C214_line_2d C214_line_round_trip_2d C214_line_3d C214_line_round_trip_3d_refuted C214_round_trip_2d C214_round_trip_3d_direct C214_round_trip_3d_traditional_refuted C214_example 
The toolbox's projection is a parameter (a function of the row-major data); angle indices are the valid ones 0..w-1. REFUTED parts: permuted volumes, 3-D single-angle round trips, 3-D traditional round trips with a single angle or column.

C215 partial
@ C215_at_least C215_unit C215_value C215_integer_ratio C215_monotone C215_fraction_lost_refuted 
Exact arithmetic; int() as truncation towards zero. REFUTED part: fractional size ratios are rounded away.

C216 proved
@ C216_gradient C216_same_sign C216_default_bounded C216_mask C216_no_data C216_at_zero C216_example 
Exact arithmetic. The default residual as the gradient of a Moreau envelope of the cost: C194.

C217 partial
@ C217_per_projection C217_special_angles C217_range C217_linear C217_flat C217_rigid C217_rank C217_integer_refuted C217_example 
skimage.transform.rotate written out from its definition (order 1, constant 0, no clipping). Unsigned integer stacks: img_as_float and the truncating assignment are modelled; boolean, signed and float16 stacks are not. REFUTED part: integer stacks.

C218 proved
@ C218_rotation_is_interpolation C218_attenuation C218_transparent C218_angle_zero 
One slice (stacks are slice by slice, C55_shape for the shapes). Discharges the hypothesis of C55 for scikit-image's actual rotation.

C219 partial
@ C219_forms C219_refused C219_shape C219_subtractable C219_zero_margin_order C219_mean C219_polynomial C219_extra_entries_refuted C219_integer_refuted C219_example
Positive parts proved for every image, margin and order (non-negative margins, at most three axes; Polynomial.fit by its least-squares contract). REFUTED parts: margins of more than two entries, integer images with a positive order.

C220 proved
@ C220_fourier_pair C220_convolution C220_symmetric C220_half_spectrum C220_half_direct C220_tie_peak C220_zero_distance C220_example
Exact arithmetic, before the cast to the requested type. irfftn by its definition (inverse transform of the mirrored half spectrum).

C221 partial
@ C221_element C221_numpy_integer_refuted C221_table_first C221_refines_c148 C221_table_density_refuted C221_table_density_irrelevant C221_delta_beta C221_delta_beta_given C221_curves C221_curves_unknown C221_example
xraylib's tables, parser and refractive index are parameters. REFUTED parts: numpy integers in get_element_number, tabulated densities.
