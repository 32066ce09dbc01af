#!/usr/bin/env python3
"""Single source for properties.jsonl: python3 tools/gen_properties.py > properties.jsonl"""
import json, sys
P = []
def p(id, title, statement, quantifier, why, anchors):
    P.append(dict(id=id, title=title, statement=statement, quantifier=quantifier, why_tests_cant=why, anchors=anchors))
S = "src/corrct/"

# ---------------------------------------------------------------- operators
p("C01", "Operator protocol: calling, transposing and materialising agree",
  "For any transform built from a direct and an adjoint function: calling it applies the direct function and reports the data-side shape, calling its transpose applies the adjoint function and reports the volume-side shape, and the dense matrix returned by explicit() multiplied by any vector equals the result of applying a linear transform to that vector. The explicit matrix of the transpose is the transposed matrix exactly when the two functions are adjoint.",
  "all linear functions, all sizes, all input vectors", "the claim is over every vector and every operator size; tests only try a few arrays",
  [S+"operators.py: BaseTransform.__call__, _transpose, explicit", S+"operators.py: TransformFunctions"])
p("C02", "Transposing twice gives the operator back",
  "For every operator A, A.T.T behaves exactly as A (same function, same shapes).",
  "all operators, all inputs", "must hold for every operator and input; the test suite only transposes once",
  [S+"operators.py: BaseTransform._transpose", S+"projectors.py: ProjectorMatrix._transpose"])
p("C03", "Gradient and divergence are exact adjoints (zero / periodic padding)",
  "With pad mode 'constant' (zeros) or 'wrap', for every array x and every gradient-field y the inner product <grad x, y> equals <x, -div y>, on arrays of every dimensionality and shape, for any list of axes.",
  "all shapes, all axes, all x and y", "identity over an infinite family of shapes and arrays",
  [S+"operators.py: TransformGradient.gradient, divergence, _op_direct, _op_adjoint"])
p("C04", "Gradient with the default edge padding has the advertised adjoint",
  "With the default 'edge' padding <grad x, y> equals <x, -div y> for every x and y.",
  "all shapes, x, y", "needs a universally quantified identity; unit tests only check a tolerance on one array",
  [S+"operators.py: TransformGradient"])
p("C05", "Laplacian is self-adjoint and negative semi-definite",
  "For 'edge', 'constant' and 'wrap' padding <lap x, y> = <x, lap y> and <lap x, x> <= 0 for every x, y on arrays of any shape and any axes.",
  "all shapes, axes, x, y, pad modes", "identity over all arrays and shapes",
  [S+"operators.py: TransformLaplacian"])
p("C06", "Convolution and its adjoint",
  "The direct convolution output has the input's shape. With zero padding, the operator declared symmetric with flipped kernel for the adjoint satisfies <Kx,y> = <x,K'y> for every kernel of odd length; without flipping, this holds for every mirror-symmetric kernel.",
  "all kernels of odd length, all signal lengths, all signals", "bilinear identity over all signals and kernels",
  [S+"operators.py: TransformConvolution"])
p("C07", "Stationary-wavelet padding is minimal, aligned and undone by the crop",
  "For every axis length n >= 1 and level the padded length is the smallest multiple of 2**level that is >= n, the two pads differ by at most one, and cropping a padded array returns the original array for every padding mode.",
  "all lengths and levels, all arrays", "all sizes/levels", [S+"operators.py: TransformStationaryWavelet, TransformDecimatedWavelet padding helpers"])
p("C08", "Stationary-wavelet coefficient packing is lossless",
  "Packing the per-level coefficient dictionaries into the single coefficient array and unpacking them is the identity: every (level,label) coefficient is stored in exactly one slot, no slot is shared and all level*(2^n-1)+1 slots are used.",
  "all numbers of levels and axes", "all levels/dimensions", [S+"operators.py: TransformStationaryWavelet._op_direct, _op_adjoint"])
p("C09", "SVD transform axis permutation round-trips",
  "For every array and axes choice, the forward axis permutation followed by the backward one restores the original layout; rescaled factors multiply back to the same matrix.",
  "all permutations, all ranks", "all permutations", [S+"operators.py: TransformSVD"])

# ---------------------------------------------------------------- data terms
p("C10", "l2 data term: dual and primal proximal steps are the true proximal maps",
  "For every data value b, sigma>0, tau>0: applying the dual proximal of DataFidelity_l2 returns the minimiser of sigma*f*(p)+|p-d|^2/2 with f(x)=(x-b)^2/2 and f* its convex conjugate, and the primal one returns the minimiser of tau*f(x)+|x-z|^2/2; hence Moreau's identity links the two.",
  "all reals b,d,z, all sigma,tau>0", "optimality against every competitor",
  [S+"data_terms.py: DataFidelity_l2"])
p("C11", "Weighted l2 data term: proximal steps are exact, zero-weight pixels are ignored",
  "As C10 for f(x)=w(x-b)^2/2 with w>0; where w=0 the dual variable is set to zero and the primal value is left unchanged.",
  "all reals, all weights >= 0", "optimality against every competitor", [S+"data_terms.py: DataFidelity_wl2"])
p("C12", "l1 and l1,2 data terms: dual step projects on the dual ball, primal step soft-thresholds",
  "DataFidelity_l1 dual proximal returns the closest point of [-w,w] to d-sigma*b; primal returns the minimiser of tau*w|x-b|+|x-z|^2/2. DataFidelity_l12 dual proximal returns the closest point of the l2 ball of radius w in the group, for groups of any size.",
  "all reals, weights w>0, groups of any size", "optimality against every competitor", [S+"data_terms.py: DataFidelity_l1, DataFidelity_l12"])
p("C13", "Kullback-Leibler data term: proximal steps are exact",
  "For counts b>0, sigma, tau>0 the dual proximal returns a value < 1 minimising sigma*f*(p)+|p-d|^2/2 for f(x)=x-b ln x, and the primal proximal returns a strictly positive value minimising tau*f(x)+|x-z|^2/2.",
  "all reals d,z, all b,sigma,tau>0", "optimality against every competitor", [S+"data_terms.py: DataFidelity_KL"])
p("C14", "Huber data term: dual proximal is exact and bounded",
  "The dual proximal of DataFidelity_Huber minimises sigma*f*(p)+|p-d|^2/2 where f is the Huber function with the given local error; the result always lies in [-1,1].",
  "all reals, eps>0, sigma>0", "optimality against every competitor", [S+"data_terms.py: DataFidelity_Huber"])
p("C15", "Background-tolerant terms (l1b, l2b): the primal proximal minimises the documented functional",
  "DataFidelity_l1b / DataFidelity_l2b primal proximal returns a minimiser of tau*f+|x-z|^2/2 for its functional.",
  "all reals", "optimality against every competitor", [S+"data_terms.py: DataFidelity_l1b, DataFidelity_l2b"])
p("C16", "Huber residual norm is the Huber value of the dual variable",
  "compute_residual_norm of the Huber term equals l2-part/2 + l1-part over the pixels partitioned by |dual| <= local_error.",
  "all dual vectors", "all vectors", [S+"data_terms.py: DataFidelity_Huber.compute_residual_norm"])
p("C17", "Residual honours mask and background; data terms slice consistently",
  "compute_residual(proj, mask) is (data - (proj + background))*mask in every pixel; masked pixels contribute nothing whatever their data value.",
  "all vectors", "all vectors", [S+"data_terms.py: DataFidelityBase.compute_residual"])
p("C18", "Fidelity with a background: primal proximal and duality gap account for the background exactly once",
  "With a constant background bg every primal proximal minimises tau*f(x+bg)+..., and the reported primal-dual gap uses proj+bg.",
  "all reals, all backgrounds", "optimality against every competitor", [S+"data_terms.py: apply_proximal_primal, compute_primal_dual_gap"])

# ---------------------------------------------------------------- regularizers
p("C19", "Regulariser instances do not interfere",
  "Constructing (and initialising) a second regulariser or constraint never changes the behaviour of one built before, unless the caller explicitly shares an object.",
  "all construct/initialise/apply histories", "quantifies over histories", [S+"regularizers.py: default arguments norm=... of Constraint_LowerLimit, Regularizer_*"])
p("C20", "Limit constraints: primal proximal is the projection on the half-line",
  "Constraint_LowerLimit / Constraint_UpperLimit primal proximal returns max(x,limit) / min(x,limit), the closest feasible point.",
  "all reals and limits", "optimality against every competitor", [S+"regularizers.py: Constraint_LowerLimit, Constraint_UpperLimit"])
p("C21", "Limit constraints in PDHG: a feasible point with zero dual is stationary",
  "For every limit, if the current solution already satisfies the constraint and the dual is zero, the dual update + dual proximal leaves the dual at zero.",
  "all limits and feasible points", "all reals", [S+"regularizers.py: Constraint_LowerLimit.update_dual, apply_proximal_dual"])
p("C22", "Regulariser step sizes satisfy the Pock-Chambolle bounds",
  "For the gradient and Laplacian regularisers the sigma and tau returned by initialize_sigma_tau dominate the row and column absolute sums of the operator, so that the preconditioned operator has norm <= 1, for every array shape, number of axes and pad mode.",
  "all shapes, axes", "all sizes", [S+"regularizers.py: Regularizer_Grad.initialize_sigma_tau, Regularizer_lap.initialize_sigma_tau"])
p("C23", "Masked l1 regularisation: soft threshold inside the mask, identity outside",
  "Regularizer_l1 primal proximal with an update mask applies the exact soft-threshold where the mask is 1 and changes nothing where it is 0.",
  "all reals and binary masks", "optimality against every competitor", [S+"regularizers.py: Regularizer_l1.apply_proximal_primal"])

# ---------------------------------------------------------------- solvers
p("C24", "Box limits and volume mask hold for the returned solution",
  "After a SIRT, PDHG or FISTA run of at least one executed update the returned volume satisfies lower_limit <= x <= upper_limit wherever the mask is one, and is zero wherever the mask is zero, whatever data, operator, initial volume, and number of iterations.",
  "all operators, data, x0, iteration counts", "every iterate of every run", [S+"solvers.py: SIRT.__call__, PDHG.__call__, FISTA.__call__"])
p("C25", "Zero-update runs also honour the limits",
  "The limits and mask hold for the returned volume also when no update is executed (iterations=0, or the tolerance is already met at the first residual check).",
  "all initial volumes", "needs all histories incl. degenerate ones", [S+"solvers.py: SIRT.__call__"])
p("C26", "Residual bookkeeping and early stopping",
  "With a tolerance, residuals[k] is the norm of the residual of iteration k for each executed iteration (of the volume before the update for SIRT and MLEM, after it for PDHG and FISTA), the loop stops exactly at the first iteration whose residual is below the tolerance, later entries are zero, and iterations never exceeds the maximum.",
  "all runs, tolerances, iteration budgets", "every history", [S+"solvers.py: SIRT.__call__, SolutionInfo"])
p("C27", "Cross-validation hygiene: held-out pixels never influence the reconstruction",
  "With b_test_mask, changing the data values of held-out pixels changes neither the reconstruction nor the training residuals for SIRT, PDHG (l2 data term) and FISTA.",
  "all data, masks, operators, iteration counts (non-interference)", "two-run (hyper)property", [S+"solvers.py: Solver._initialize_b_masks, SIRT, PDHG, FISTA"])
p("C28", "Cross-validation hygiene of MLEM",
  "The same non-interference holds for MLEM.",
  "all data, masks, operators", "two-run property", [S+"solvers.py: MLEM.__call__"])
p("C29", "Training and test masks partition the valid pixels",
  "For binary masks the training and test masks produced for a solve are disjoint and add up to the user's data mask.",
  "all binary masks", "all masks", [S+"solvers.py: Solver._initialize_b_masks"])
p("C30", "SIRT decreases the weighted least-squares residual at every iteration",
  "For the l2 data term, any system matrix whose largest absolute row and column sums are positive and at most 1e5 (so that the small-entry guard of the diagonal scalings is harmless), relaxation in [0,2], binary masks and any box limits with a feasible start, the sigma-weighted squared residual never increases from one iteration to the next.",
  "all matrices, data, feasible x0, iterations", "descent along every trajectory", [S+"solvers.py: SIRT.__call__, compute_diagonal_scaling"])
p("C31", "SIRT fixed points are weighted least-squares solutions",
  "A volume unchanged by a SIRT iteration minimises the weighted residual over the volumes that respect the limits and mask (and without limits satisfies the weighted normal equations); conversely such minimisers are unchanged.",
  "all matrices and data", "iff over all volumes", [S+"solvers.py: SIRT.__call__"])
p("C32", "PDHG preconditioners satisfy the convergence condition",
  "The diagonal step sizes computed by PDHG satisfy (sum_ij |K_ij| x_j y_i)^2 <= (sum_j x_j^2/tau_j)(sum_i y_i^2/sigma_i), for every operator and every stack of regularisers.",
  "all operators with the true absolute operator, all vectors", "all vectors", [S+"solvers.py: compute_diagonal_scaling, PDHG"])
p("C33", "PDHG fixed points are optimal",
  "For the l2 data term with a linear regulariser of l1 type, a fixed point of the PDHG iteration is a minimiser of the documented objective; conversely the iteration started at a primal-dual solution stays there.",
  "all operators, data, competitors", "optimality against every competitor", [S+"solvers.py: PDHG.__call__"])
p("C34", "FISTA momentum schedule",
  "Without restarts the momentum sequence satisfies t_{k+1}^2 - t_{k+1} = t_k^2, t_k >= (k+2)/2, and the extrapolation weight stays in [0,1).",
  "all k", "all iterations", [S+"solvers.py: FISTA.__call__"])
p("C35", "FISTA restart keeps the extrapolation weight below one",
  "After a gradient restart the extrapolation weight is still in [0,1].",
  "all histories", "all histories", [S+"solvers.py: FISTA.__call__"])
p("C36", "FISTA fixed points minimise the documented objective (Lipschitz step)",
  "A fixed point of the un-preconditioned FISTA iteration with an l1 regulariser minimises 1/2|Ax-b|^2 + w|x|_1.",
  "all operators, data, weights", "optimality against every competitor", [S+"solvers.py: FISTA.__call__, compute_Lipschitz_scaling"])
p("C37", "MLEM keeps the volume non-negative and preserves total counts",
  "For a non-negative operator and data, every MLEM iterate is non-negative, and after each update the sensitivity-weighted total of the volume equals the total counts of the data (where the predicted data is above the guard).",
  "all non-negative matrices/data, iterations", "every iterate", [S+"solvers.py: MLEM.__call__"])
p("C38", "MLEM never decreases the Poisson likelihood",
  "The Poisson log-likelihood of the data under the forward-projected volume is non-decreasing along MLEM iterations.",
  "all positive matrices/data, iterations", "ascent along every trajectory", [S+"solvers.py: MLEM.__call__"])
p("C39", "SART visits every projection exactly once per sweep",
  "In every SART iteration each projection angle is used exactly once, in some order, and a consistent volume is left unchanged.",
  "all permutations, operators, data", "all random orders", [S+"solvers.py: SART.__call__"])
p("C40", "Power method never overestimates the operator norm",
  "The value returned by the power method is at most the operator norm, for every starting vector and number of iterations.",
  "all matrices, starting vectors, iteration counts", "all matrices/starts", [S+"solvers.py: PDHG.power_method"])

p("C94", "Diagonal scalings are safe at any matrix scale",
  "Multiplying the system matrix by a positive constant does not turn the diagonal step sizes of SIRT/PDHG into divergent ones: the weighted residual of SIRT still never increases.",
  "all matrices and scales", "all matrices/scales", [S+"solvers.py: compute_diagonal_scaling"])
p("C95", "absolute() of a convolution keeps its settings",
  "The operator returned by TransformConvolution.absolute() is the same convolution with |kernel|: same padding mode, same symmetry and flip settings; for a non-negative kernel it equals the original operator.",
  "all kernels, settings and inputs", "all kernels and settings", [S+"operators.py: TransformConvolution.absolute"])
# ---------------------------------------------------------------- param tuning
p("C41", "Elapsed-time formatting is faithful",
  "format_time renders hours, minutes<60, seconds<60, milliseconds<1000 that recombine to the given duration within one millisecond.",
  "all non-negative durations", "all durations", [S+"param_tuning.py: format_time_ns / PerfMeter"])
p("C42", "Random test mask has exactly the requested number of pixels",
  "create_random_test_mask marks exactly ceil(fraction*size) distinct pixels with 1 and all others with 0.",
  "all shapes, fractions in [0,1], random draws", "all random draws", [S+"param_tuning.py: create_random_test_mask"])
p("C43", "k-fold masks partition the data",
  "create_k_fold_test_masks returns k masks such that every pixel belongs to exactly one, with sizes differing by at most one, whatever the shuffle and seed.",
  "all sizes, k, shuffles", "all permutations", [S+"param_tuning.py: create_k_fold_test_masks"])
p("C44", "Hyper-parameter fit stays in range and is at least as good as measured (parabola model)",
  "The fitted minimum returned for an interior measured minimum lies within the bracketing hyper-parameters and its value does not exceed the measured minimum; for a concave or out-of-range fit the measured minimum is returned; mismatched or too short inputs raise ValueError.",
  "all abscissae and loss values", "all loss curves", [S+"param_tuning.py: fit_func_min", S+"alignment/fitting.py: fit_parabola_min"])
p("C45", "Parallel evaluation equals serial evaluation",
  "For every completion order of the worker tasks the collected results are in the order of the requested hyper-parameters and equal to the serial results; if any task fails, an exception is raised and no partial result is returned.",
  "all completion orders (schedules)", "all schedules", [S+"param_tuning.py: BaseParameterTuning._parallel_compute, _serial_compute"])
p("C46", "Performance meter batches accumulate",
  "Appending meters and adding batches is associative, and aggregate statistics equal those of the concatenated meters.",
  "all batches", "all histories", [S+"param_tuning.py: PerfMeterBatch"])
p("C47", "Cross-validation loss is the held-out residual of the returned solution",
  "The loss value used for the choice of the hyper-parameter is the held-out residual of the last executed iteration.",
  "all solver runs including early stopping", "all histories", [S+"param_tuning.py: CrossValidation.compute_loss_values"])

# ---------------------------------------------------------------- models
p("C48", "Geometry rotation is rigid and composes",
  "ProjectionGeometry.rotate preserves lengths and angles of source position, detector position and detector axes, rotating by zero is the identity, and rotating by a then b equals rotating by a+b.",
  "all geometries, angles", "all reals", [S+"models.py: ProjectionGeometry.rotate"])
p("C49", "Volume geometry shapes are consistent",
  "get_vol_geom_from_volume describes exactly the given volume's shape, lifting to 3D is idempotent, and square/mask-extent helpers agree with the shape.",
  "all shapes", "all shapes", [S+"models.py: VolumeGeometry"])
p("C50", "Cone-beam pre-weights are cosine weights",
  "The returned FBP pre-weights equal the cosine of the angle between the central ray and the ray of each pixel: positive and at most one, for every source/detector distance.",
  "all geometries and pixels", "all reals", [S+"models.py: ProjectionGeometry.get_pre_weights"])
p("C51", "Detector tilt applies every requested angle",
  "set_detector_tilt with several angles composes all the rotations.",
  "all angle lists", "all lists", [S+"models.py: ProjectionGeometry.set_detector_tilt"])

# ---------------------------------------------------------------- backends
p("C52", "Projector backend never leaks or double-frees handles",
  "Along any sequence of initialise / make-ready / project / dispose / context-manager operations on fresh backends, the live native projector handles are exactly those held by the backend, every handle is deleted at most once, and after dispose none is live.",
  "all operation sequences", "all histories", [S+"_projector_backends.py: ProjectorBackendASTRA"])
p("C53", "Re-initialising a ready backend releases its previous handles",
  "Calling initialize_geometry on a backend that holds handles deletes them before forgetting them.",
  "all operation sequences", "all histories", [S+"_projector_backends.py: ProjectorBackendASTRA.initialize_geometry"])
p("C54", "Projection calls release temporary native objects whichever native call fails",
  "fp and bp free every data and algorithm object they created, whichever of the native calls raises.",
  "all failure points", "all crash points", [S+"_projector_backends.py: ProjectorBackendASTRA.fp, bp"])
p("C55", "Attenuation maps: shape, range and monotonicity",
  "The computed transmission map has the shape of the input volume; for non-negative attenuation all its values lie in (0,1] and increasing the local attenuation never increases any of them.",
  "all volumes", "all volumes", [S+"_projector_backends.py: compute_attenuation"])

# ---------------------------------------------------------------- projectors
p("C56", "Matrix projector is an exact adjoint pair, closed under transposition and absolute value",
  "ProjectorMatrix.fp / bp are adjoint for every matrix, its transpose swaps them, and absolute() bounds the projections entrywise.",
  "all matrices and vectors", "all matrices", [S+"projectors.py: ProjectorMatrix"])
p("C57", "Per-angle weighting and point-spread keep projector and back-projector adjoint",
  "ProjectorUncorrected with projection intensities and a symmetric PSF is an adjoint pair whenever the backend is; with the default asymmetric PSF the back-projection ignores the PSF.",
  "all backends/vectors", "all vectors", [S+"projectors.py: ProjectorUncorrected"])
p("C58", "Self-attenuation projector: adjointness exactly in the symmetric mode; threading is unobservable",
  "ProjectorAttenuationXRF with is_symmetric=True is an adjoint pair for every attenuation map and detector set; results do not depend on the number of threads or on completion order.",
  "all maps, vectors, schedules", "all schedules and vectors", [S+"projectors.py: ProjectorAttenuationXRF"])

# ---------------------------------------------------------------- filters
p("C59", "Filter padding size is a power of two and large enough",
  "The padded width is a power of two, at least 64 and at least twice the data width (no wrap-around), for every width.",
  "all widths", "all widths", [S+"filters.py: Filter.get_padding_size"])
p("C60", "An all-pass filter returns the data unchanged",
  "Applying a filter whose Fourier response is one everywhere returns exactly the input sinogram, for every width and pad mode (exact arithmetic).",
  "all widths, data, pad modes", "all widths/data", [S+"filters.py: Filter.apply_filter"])
p("C61", "Basis windows partition the frequency axis",
  "The order-0 basis windows generated for the data-driven filter are disjoint, contiguous from frequency 0, generation terminates, and together they cover all sampled frequencies.",
  "all widths, growth parameters", "all widths/params", [S+"filters.py: create_basis / create_basis_wavelet"])
p("C62", "Setting the real-space filter to its own value is the identity",
  "f.filter_real = f.filter_real leaves the filter unchanged.",
  "all filters", "all filters", [S+"filters.py: Filter.filter_real"])

# ---------------------------------------------------------------- processing
p("C63", "Azimuthal integration conserves the total intensity",
  "The sum of the azimuthally integrated profile equals the sum of the image, for every image, dimensionality and domain.",
  "all images", "all images", [S+"processing/misc.py: azimuthal_integration"])
p("C64", "Line intersection returns a true crossing point",
  "When a crossing is reported, the returned point lies on both (piecewise linear) curves, its abscissa lies in the reported interval, 'first'/'last' select the first/last crossing in the allowed window, and None is returned exactly when the curves do not cross.",
  "all curves and limits", "all curves", [S+"processing/misc.py: lines_intersection"])
p("C65", "Fourier ring correlation lies in [0,1] and is 1 for identical images",
  "Every value of the (smoothed) FRC curve is between 0 and 1; comparing an image with a positive multiple of itself gives 1 on every ring with signal.",
  "all images, rings", "all images", [S+"processing/post.py: compute_frc"])
p("C66", "Bias-variance decomposition",
  "The maps returned by compute_reconstruction_bias_variance_maps satisfy mse = bias^2 + var in every pixel.",
  "all references and realisations", "all data", [S+"processing/post.py: compute_reconstruction_bias_variance_maps"])
p("C67", "Scale/bias fit uses the exact gradient of the objective",
  "The gradient handed to the optimiser in fit_scale_bias is the exact gradient of the objective, and its zeros are global minimisers, for every linear projector.",
  "all projectors, images, data", "all reals", [S+"processing/post.py: fit_scale_bias"])
p("C68", "SNIP background never exceeds the image and never undershoots its minimum",
  "After any number of iterations and any window the background is pointwise <= the image and >= the image minimum, and more iterations never increase it.",
  "all images, windows, iterations", "all iterations", [S+"processing/pre.py: snip"])
p("C69", "Binning with auto-crop preserves block means and divisibility",
  "With auto_crop the cropped size is divisible by the binning, at most binning-1 pixels are removed per axis, evenly, and the mean of the binned image equals the mean of the cropped image.",
  "all sizes, binnings, images", "all sizes", [S+"processing/pre.py: bin_imgs"])
p("C70", "Background from margins of a constant image is that constant",
  "For any admissible pair of margins, background_from_margin of an image with constant rows returns that constant.",
  "all margins (including zero on one side)", "all margins", [S+"processing/pre.py: background_from_margin"])
p("C71", "Flat-field plus minus-log inverts the Beer-Lambert law",
  "For positive flats, flat*exp(-p) (+dark) is mapped back to exactly p; results do not depend on a per-pixel gain; cap_intensity bounds the result.",
  "all flats, darks, line integrals", "all reals", [S+"processing/pre.py: apply_flat_field, apply_minus_log"])
p("C72", "Variance weights are positive, bounded and antitone in the variance",
  "Weights are zero outside the mask, positive inside, bounded by the weight that belongs to the smallest accepted variance (by 1 when normalised, and then 1 is attained), independent of the values outside the mask, and a larger variance never gets a larger weight; this holds for all option combinations and for boolean as well as 0/1 masks.",
  "all variance maps, options", "all inputs", [S+"processing/noise.py: compute_variance_weight"])
p("C73", "Centre of mass is scale invariant, in range and follows shifts",
  "com of a non-zero volume lies within the coordinates' range, is unchanged by scaling, is zero for mirror-symmetric volumes and moves by exactly the applied (non-wrapping) shift.",
  "all volumes", "all volumes", [S+"processing/post.py: com"])

# ---------------------------------------------------------------- alignment
p("C74", "Sub-pixel refinement of an interior sampled maximum stays within half a sample",
  "For three samples whose middle one is the largest (not all equal) the fitted vertex lies within [-1/2,1/2] of it, no error is raised, and the vertex value is at least the sampled maximum.",
  "all samples", "all reals", [S+"alignment/fitting.py: refine_max_position_1d, extract_peak_regions_1d"])
p("C75", "Cross-correlation finds the applied circular shift",
  "If the data is the projection circularly shifted by s pixels and the projection is not periodic, the integer shift found is s (signed representative), for every image width and both FFT modes.",
  "all signals, shifts, sizes", "all signals", [S+"alignment/fitting.py: fit_shifts_vu_xc"])
p("C76", "Alignment shifts are returned in the order of the input angles",
  "DetectorShiftsXC.fit_vu returns in position j the shift computed for the j-th input projection, for every ordering of the angles.",
  "all angle orderings", "all permutations", [S+"alignment/shifts.py: DetectorShiftsXC.fit_vu"])
p("C77", "Ellipse evaluation returns points on the ellipse; extremes are extreme",
  "For u within the ellipse's range both returned v coordinates satisfy the ellipse equation, and extremes_u are exactly the smallest and largest u on the ellipse.",
  "all ellipses and u", "all reals", [S+"alignment/fitting.py: Ellipse.__call__, extremes_u"])
p("C78", "Ellipse parameters are recovered from exact points",
  "If the fitted coefficients are those of an ellipse a,b,c,u,v the returned parameters are a,b,c,u,v.",
  "all ellipses incl. tilted", "all reals", [S+"alignment/fitting.py: fit_ellipse_parameters"])
p("C79", "Ellipse centre from opposite points is exact",
  "If every pair of opposite points is collinear with a common centre (and not all lines coincide), the least-squares centre is that point, with or without rescaling.",
  "all point sets", "all point sets", [S+"alignment/fitting.py: fit_ellipse_center"])
p("C80", "Shift filtering zeroes exactly the out-of-range shifts",
  "_filter_shifts leaves shifts within the limits unchanged and zeroes the others; results never exceed the limit.",
  "all shifts", "all reals", [S+"alignment/shifts.py: _filter_shifts"])
p("C81", "Cone-beam geometry: detector frame is orthonormal and reproduces the calibration parameters",
  "For all angles the detector axes returned by get_prj_geom are orthonormal, the source-detector-plane distance is D, and the source projects at (u0,v0) of the detector frame.",
  "all calibration parameters", "all reals", [S+"alignment/cone_beam.py: ConeBeamGeometry.get_prj_geom"])
p("C82", "Geometry update is functional",
  "ConeBeamGeometry.update changes exactly the named field of a copy and leaves the original untouched; JSON save followed by load restores every field.",
  "all fields and values", "all states", [S+"alignment/cone_beam.py: ConeBeamGeometry.update, to_json, from_json"])
p("C83", "2D sub-pixel refinement recovers the vertex of an exact paraboloid",
  "For samples of an exact concave 2D quadratic on an n x m grid the vertex returned is the true vertex, in pixel units, for every grid size.",
  "all quadratics and grid sizes", "all sizes", [S+"alignment/fitting.py: refine_max_position_2d"])

# ---------------------------------------------------------------- structured illumination
p("C84", "MURA sizes: every returned size is a prime congruent to 1 modulo 4, and none in range is missed",
  "compute_possible_mask_sizes(n) returns exactly the primes p = 4l+1 in the range up to n.",
  "all n", "all n", [S+"struct_illum.py: MaskGeneratorMURA.compute_possible_mask_sizes"])
p("C85", "MURA masks have a two-valued cross-correlation",
  "For prime size p = 4l+1 the periodic cross-correlation of encoding and decoding MURA masks is one constant value for every non-zero shift and a larger one at shift zero.",
  "all primes p=4l+1, all shifts", "all primes", [S+"struct_illum.py: MaskGeneratorMURA.__init__"])
p("C86", "Ghost-imaging projector adjointness and QR equivalence",
  "fp and bp are adjoint exactly when encoding and decoding masks coincide; the QR-decomposed masks and buckets have the same solutions as the original system.",
  "all masks, images, buckets", "all masks", [S+"struct_illum.py: ProjectorGhostImaging, MaskCollection.get_qr_decomposition"])
p("C87", "Shift generators enumerate distinct valid shifts",
  "Sequential, interval and random shift lists contain distinct in-range shifts; the random one has exactly min(requested, available) of them and the full sequential one contains all.",
  "all shapes, random draws", "all sizes", [S+"struct_illum.py: MaskGenerator.get_interval_shifts, get_random_shifts, get_sequential_shifts"])

# ---------------------------------------------------------------- physics
p("C88", "Energy / wavelength conversions are mutually inverse and unit conversions compose",
  "wlength_to_energy inverts energy_to_wlength in every unit pair; convert(a,b)*convert(b,c)=convert(a,c).",
  "all energies>0, all units", "all reals", [S+"physics/units.py"])
p("C89", "Attenuation maps computed by threads equal the serial ones, and selecting one rotation index returns that map",
  "compute_maps gives the same maps for every thread completion order; get_maps(rot_ind=i) returns exactly map i for every valid index, including negative ones as for NumPy.",
  "all schedules, indices", "all schedules", [S+"physics/attenuation.py: AttenuationVolume.compute_maps, get_maps"])
p("C90", "Fluorescence line selection and mean energy",
  "get_lines returns exactly the lines whose name starts with the requested (upper-cased) family; the rate-averaged energy lies between the smallest and the largest energy of the lines with positive rate.",
  "all families, rates", "all inputs", [S+"physics/xrf.py: LinesSiegbahn.get_lines, get_energy"])
p("C91", "Phase-propagation filter with unit response is the identity and preserves the mean",
  "For zero propagation distance apply_propagation_filter returns the input image; both filter types have unit response at zero frequency and the TIE one is >= 1 everywhere, so its inversion is well defined.",
  "all images, parameters", "all images", [S+"physics/phase.py: apply_propagation_filter, _tie_freq_response, _ctf_freq_response"])
p("C92", "Querying an attenuation coefficient does not modify the caller's compound",
  "get_linear_attenuation_coefficient leaves its arguments unchanged.",
  "all compounds", "all histories", [S+"physics/attenuation.py: get_linear_attenuation_coefficient"])
p("C93", "Pencil-beam profile is a symmetric probability distribution",
  "The returned PSF has 2*profile_size+1 non-negative entries, sums to one and is mirror symmetric, for each beam shape.",
  "all sizes, voxel sizes, FWHM", "all reals", [S+"physics/__init__.py: pencil_beam_profile"])
p("C96", "Vectorial total variation: the dual proximal is the projection onto the dual ball",
  "apply_proximal_dual of the VTV regulariser returns, at each pixel, the point of the ball {point-wise dual norm <= weight} closest to its input; points inside the ball are unchanged.",
  "all exponents in {1,2,inf}, all numbers of derivatives and channels, all duals, weights > 0", "ranges over all real arrays", [S+"regularizers.py: Regularizer_VTV.apply_proximal_dual"])
p("C97", "Wavelet regularisers: every documented path works and groups sub-bands by level",
  "The primal proximal of the normalised stationary-wavelet regulariser returns; the l12 version thresholds jointly exactly the detail sub-bands of one level; vl1wl accepts a reference image for every number of channels and levels.",
  "all levels, numbers of axes and channels", "all sizes", [S+"regularizers.py: Regularizer_swl.apply_proximal_primal, Regularizer_swl.apply_proximal_dual, Regularizer_vl1wl.apply_proximal_dual"])
p("C98", "Wavelet regularisers: step sizes satisfy the PDHG condition",
  "With the sigma and tau set by initialize_sigma_tau, sum_i sigma_i (W x)_i^2 <= tau |x|^2 for every image x.",
  "all images, levels, wavelets", "ranges over all images and levels", [S+"regularizers.py: Regularizer_swl.initialize_sigma_tau, Regularizer_dwl.initialize_sigma_tau"])
p("C99", "Hyper-parameter grids cover the requested interval",
  "get_lambda_range(start, end, n) returns exactly the values 10^(j/n) in [start, end] (up to 0.1% above end) when aligned; otherwise start*10^(k/n) for k=0,1,... up to the first value that reaches end (within a relative tolerance), overshooting by less than one step.",
  "all 0<start<=end, n>=1", "ranges over all reals", [S+"param_tuning.py: get_lambda_range"])
p("C100", "Additional keyword arguments reach the task initialisation function",
  "compute_loss_values / process_hp_vals pass init_fun_kwds to the registered initialisation function.",
  "all registered functions and keyword sets", "all functions", [S+"param_tuning.py: BaseParameterTuning.task_init_function, _compute_reconstruction"])
p("C101", "Slicing a projection geometry selects exactly the requested projections",
  "geom[idx] keeps exactly the rows idx of every per-angle field, and slicing after rotate(angles) equals rotate(angles[idx]).",
  "all geometries, angle lists, index lists", "all lists", [S+"models.py: ProjectionGeometry.__getitem__, rotate"])
p("C102", "Lifting a projection geometry to 3-D",
  "get_3d returns a geometry with three dimensions, leaves all vectors untouched, and is idempotent.",
  "all geometry types and shapes", "all types", [S+"models.py: ProjectionGeometry.get_3d, ndim"])
p("C103", "Scaled geometry fields are available for every supported geometry type",
  "get_field_scaled returns the field divided by the pixel/voxel ratio, with as many coordinates as the geometry has dimensions, for every geometry type accepted by ndim.",
  "all geometry types, fields, ratios", "all types and reals", [S+"models.py: ProjectionGeometry.get_field_scaled"])
p("C104", "Detector shifts are set along the detector axes and replace earlier ones",
  "After set_detector_shifts_vu the detector position of projection i is u_i*U_i + v_i*V_i (+ distance along Y), the coordinates read back on orthonormal axes are the requested ones plus the rotation-axis offset along U only, and earlier positions are forgotten.",
  "all positions, offsets and geometries", "all reals, all list lengths", [S+"models.py: ProjectionGeometry.set_detector_shifts_vu"])
p("C105", "Per-angle detector distances are accepted as documented",
  "set_detector_shifts_vu accepts a scalar distance, one distance per position, and (documented) several distances with a single position.",
  "all numbers of positions and distances", "all list lengths", [S+"models.py: ProjectionGeometry.set_detector_shifts_vu"])
p("C106", "Projected displacements follow the rotation",
  "project_displacement_to_detector returns the dot products of the displacement with the detector axes; rotating the geometry by a gives the same detector shift as rotating the displacement by -a; a displacement of the wrong dimension raises ValueError.",
  "all geometries, angles, displacements", "all reals", [S+"models.py: ProjectionGeometry.project_displacement_to_detector"])
p("C107", "Geometries built from the same data agree",
  "Dimension names are read right-aligned from the format string; the volume built from data has U-2*padding voxels in X and Y and V in Z in physical size, whatever the super-sampling, and matches the detector shape of the projection geometry built from the same stack.",
  "all shapes, formats, paddings, super-samplings", "all shapes", [S+"models.py: get_vol_geom_from_data, get_prj_geom_parallel, _get_data_dims"])
p("C108", "Setting up a projector does not change the caller's projection geometry",
  "initialize_geometry leaves the ProjectionGeometry object it receives unchanged, and the resulting projection shape depends only on the volume, the angles and the geometry as the caller specified it.",
  "all volumes, angles and geometries, and every reuse of a geometry object", "all geometries and reuse histories", [S+"_projector_backends.py: ProjectorBackendASTRA.initialize_geometry, ProjectorBackendDirectASTRA.initialize_geometry"])
p("C109", "A single-angle projection uses the projector of that angle",
  "A successful fp/bp with angle_ind runs the projector and the geometry of the same single angle, any other index raises; without angle_ind the projector of all angles is used.",
  "all backends histories, all indices", "all histories and integers", [S+"_projector_backends.py: ProjectorBackendASTRA.fp, bp, ProjectorBackendDirectASTRA.fp, bp"])
p("C110", "The two ASTRA interfaces describe the same acquisition, for every voxel size",
  "The traditional and the direct ASTRA backends hand the toolbox the same source/detector vectors, and the default detector covers the volume (up to one pixel) for every voxel size.",
  "all vectors, pixel/voxel ratios and voxel sizes", "all reals", [S+"_projector_backends.py: ProjectorBackendASTRA.initialize_geometry, ProjectorBackendDirectASTRA.initialize_geometry"])
p("C111", "Forward projection returns the advertised projection shape",
  "fp of a projector returns an array of shape prj_shape for every number of angles, with or without projection intensities; with several detectors the detector axis comes first.",
  "all projection shapes, numbers of angles and detectors", "all shapes: a test fixes one", [S+"projectors.py: ProjectorUncorrected.fp, ProjectorAttenuationXRF.fp", S+"_projector_backends.py: ProjectorBackendASTRA.fp"])
p("C112", "collapse_detectors leaves a usable projector",
  "After collapse_detectors() the self-attenuation projector still applies to volumes of its own shape, for every number of angles and detectors and every volume.",
  "all configurations", "all shapes", [S+"projectors.py: ProjectorAttenuationXRF.collapse_detectors, fp_angle"])
p("C113", "The first-order filter basis is orthogonal and complete for its hat functions",
  "create_basis(order=1) returns one function per window; they are pairwise orthogonal, none is zero, and every triangular function is a combination of the basis functions up to its own, normalised or not.",
  "all sizes, growth rules, starts", "all sizes", [S+"filters.py: create_basis"])
p("C114", "A data-driven filter object can be reused on other data",
  "Calling the same FilterMR object on sinograms of different widths works for each of them.",
  "all sequences of widths", "all histories", [S+"filters.py: FilterMR.compute_filter, initialize"])
p("C115", "The data-driven filter is optimal in its basis",
  "If the least-squares solver returns a minimiser, the filter stored by FilterMR.compute_filter has a (regularised) projection residual no larger than any other filter in the span of the basis, for every linear projector and mask.",
  "all data, projectors, coefficients", "all reals", [S+"filters.py: FilterMR.compute_filter"])
p("C116", "Fourier operator is an isometry whose transpose inverts it", "For every shape, every choice of valid axes (negative allowed, None = all) and every floating-point array, TransformFourier is an adjoint pair with its transpose for the plain inner product of real arrays, preserves inner products, and applying the transpose after the operator returns the array.", "all shapes, axes lists, real arrays x and coefficient arrays y", "The adjoint identity must hold for every pair of arrays and every axes list; a test compares a few random arrays.", [S+"operators.py: TransformFourier.fft, ifft, _op_direct, _op_adjoint"])
p("C117", "Fourier regularizer penalises every frequency but the mean of the listed axes", "For every image shape and choice of axes, the mask of Regularizer_fft has values in [0, 1], is the same for real and imaginary parts, and is zero exactly at the zero frequency of the listed axes, whichever way valid axes are written.", "all shapes, axes, filters and frequencies", "The mask is a function of shape and axes; only the default axes are exercised by tests.", [S+"regularizers.py: Regularizer_fft.initialize_sigma_tau"])
p("C118", "Fourier regularizer's primal proximal is the proximal point", "For every image, step and mask, Regularizer_fft.apply_proximal_primal replaces the image by the minimiser of half the squared distance plus tau*weight times the masked norm of its Fourier coefficients.", "all shapes, images, masks and non-negative thresholds", "Optimality is a statement about all competing images.", [S+"regularizers.py: Regularizer_fft.apply_proximal_primal", S+"data_terms.py: DataFidelity_l1.apply_proximal_primal, DataFidelity_l12.apply_proximal_primal"])
p("C119", "Residual norms do not depend on how many dimensions the data have", "For data of any shape (1-D, 2-D sinograms, 3-D stacks) compute_residual_norm returns the sum over all pixels (of squares, or of absolute values) of the residual.", "all shapes and residuals, l1, l2 and KL data terms", "The norm must be right for every dimensionality and every residual.", [S+"data_terms.py: DataFidelity_l1.compute_residual_norm, DataFidelity_l2.compute_residual_norm, DataFidelity_KL.compute_residual_norm"])
p("C120", "Reported primal-dual gap is non-negative and vanishes at the optimum", "For every data vector, projection and feasible dual the value of compute_primal_dual_gap is at least 0, and is 0 exactly at primal-dual optimal pairs.", "all data, projections and feasible duals", "Weak duality is a statement about all pairs.", [S+"data_terms.py: DataFidelity_l2.compute_primal_dual_gap, DataFidelity_l1.compute_primal_dual_gap"])
p("C121", "Circular masks are fractions, exact inside and outside",
  "circular_mask has values in [0,1]; without taper and super sampling it is 1 exactly within the radius and 0 elsewhere; a larger radius_offset never lowers a value; with the cosine taper it is 1 inside the radius, 0 beyond the taper and never increases with the distance, for every taper target including the default.",
  "all shapes, origins, offsets, super samplings, taper targets", "all shapes and offsets", [S+"processing/misc.py: circular_mask"])
p("C122", "Normalised cross-correlation is bounded by 1 and peaks at the zero lag",
  "norm_cross_corr values lie in [-1,1], are ordered by lag as FFT frequencies, the auto-correlation (and its profile) is 1 at the zero lag, results of a stack are returned in the stack's order, and template matching works for every image shape.",
  "all images, stacks, modes", "all images", [S+"processing/misc.py: norm_cross_corr"])
p("C123", "Padding a sinogram only adds samples",
  "Cropping the output of pad_sinogram by the widths gives the original back for every mode and axis; the default mode repeats the first and last sample; one width is used on both sides, and anything else than one or two widths is rejected.",
  "all shapes, axes, widths, modes", "all shapes", [S+"processing/pre.py: pad_sinogram"])
p("C124", "Shifting projections keeps range and constants and is exact for integer shifts",
  "shift_proj_stack never leaves the range of the projection, keeps constant projections, moves the samples exactly for integer shifts, is the identity for zero shifts, and accepts every image size in both modes.",
  "all projections, sizes, shifts, modes", "all sizes and shifts", [S+"processing/pre.py: shift_proj_stack"])
p("C125", "De-striping pads to the wavelet size, filters only stripes and returns the original shape",
  "destripe_wlf_vwu pads each axis to the smallest multiple of 2^level, evenly, and crops back to the original shape; its filter removes the constant component along the angles and attenuates (never amplifies) the others; any angle axis may be chosen.",
  "all shapes, levels, sigmas, angle axes", "all shapes", [S+"processing/pre.py: destripe_wlf_vwu"])
p("C126", "Eigen flats factorise the data",
  "The two stacks returned by compute_eigen_flats are positive and multiply, pixel by pixel, to the (dark-corrected, clipped) input transmissions.",
  "all stacks, flats, darks", "all data", [S+"processing/pre.py: compute_eigen_flats"])
p("C127", "Resolution estimate is the first crossing of FRC and threshold beyond the DC bin",
  "estimate_resolution returns a point on both (piecewise linear) curves in the first interval from bin 1 on where they cross, None exactly when they do not cross there, and never raises; also when the threshold is a stack of curves as compute_frc returns with theo_threshold=False.",
  "all curves, stacked or not", "all curves", [S+"processing/post.py: estimate_resolution", S+"processing/misc.py: lines_intersection"])
p("C128", "Noise variances follow first-order error propagation",
  "Above the intensity floor, compute_variance_poisson returns the delta-method variance of Is/I0 and compute_variance_transmission that of -log(Is/I0); both are never negative and positive where there is signal.",
  "all intensities, reference variances", "all inputs", [S+"processing/noise.py: compute_variance_poisson, compute_variance_transmission"])
p("C129", "Power spectrum accounts for all the energy and has no undefined bins",
  "The bins of the power spectrum, weighted by ring size, add up to the energy of the (tapered) image; every returned bin is a non-negative number for every image, shape and smoothing window.",
  "all images, shapes, windows", "all images", [S+"processing/post.py: power_spectrum"])
p("C130", "Centre of rotation from two opposite projections",
  "DetectorShiftsXC.fit_u_180 returns minus the offset of the rotation axis, for every detector width and every scan that contains the smallest angle and its opposite.",
  "all projections, offsets, widths, angle lists", "all signals and sizes", [S+"alignment/shifts.py: DetectorShiftsXC.fit_u_180"])
p("C131", "Sum-of-absolute-differences registration finds the applied shift",
  "fit_shifts_u_sad returns the integer displacement of a line, if it is within the search range, for every line and with the default arguments.",
  "all lines, displacements, search ranges", "all signals", [S+"alignment/fitting.py: fit_shifts_u_sad"])
p("C132", "Parabolic refinement of a measured loss minimum",
  "fit_parabola_min rejects inputs of wrong or insufficient length, always returns a parameter in the tested range, and for an interior minimum returns the vertex of the parabola through the three points around it, to the requested decimals.",
  "all parameter ranges and losses", "all reals", [S+"alignment/fitting.py: fit_parabola_min"])
p("C133", "Camera tilt from line-wise shifts",
  "fit_camera_tilt_angle of a stack whose line-wise centre of rotation is the line b + a*y returns the offset b and the tilt angle -a (small angles).",
  "all line counts, offsets and tilts", "all reals", [S+"alignment/fitting.py: fit_camera_tilt_angle"])
p("C134", "Centre of rotation from a full turn",
  "DetectorShiftsXC.fit_u_360 compares every projection of the first half turn with the opposite one, and returns minus the offset of the axis, in every acquisition order.",
  "all numbers of angles, widths, projections", "all signals and orders", [S+"alignment/shifts.py: DetectorShiftsXC.fit_u_360"])
p("C135", "Jitter correction from the centre of mass",
  "Displacing a line by t pixels changes its centre of mass by t (with the sign convention of the class), and DetectorShiftsPRE.fit_u returns exactly the corrections of lines that jump by t_w pixels off the fitted sinusoid.",
  "all lines, displacements, limits", "all signals", [S+"alignment/shifts.py: DetectorShiftsPRE.fit_u"])
p("C136", "Cone-beam calibration recovers the acquisition geometry",
  "For the shadows of two circular orbits on an untilted (theta = 0) detector, fit returns the source distance R, the detector distance D, the detector tilt phi, and the origin of the projected axis; orbits symmetric about the source raise an error when no distance was measured.",
  "all geometries with |phi| < 90, all orbit radii and heights", "all reals", [S+"alignment/cone_beam.py: FitConeBeamGeometry.fit, _fit_distance_det2src"])
p("C137", "Detector rotation from the projected rotation axis",
  "The angle of the line through the projected orbit centres is the detector rotation eta, in [-180, 180); swapped orbits are refused; the points are then rotated back to the unrotated frame.",
  "all geometries, all pairs of points of the axis", "all reals", [S+"alignment/cone_beam.py: _get_rot_axis_angle_deg, FitConeBeamGeometry._initialize"])
p("C138", "Re-centring a volume by moving the detector",
  "With the shifts returned by RecenterVolume.to_com every point of the moved volume is seen on the same detector position as before in every projection, up to the precision; as_reference gives the same result with the 'com' and the 'xc' method when the reference is a displaced copy; unknown methods and wrong dimensions are refused.",
  "all 3D geometries, angles, shifts, volumes", "all geometries and volumes", [S+"alignment/centering.py: RecenterVolume"])
p("C139", "Marker images are centred on pixel n // 2 and the tracked position is that of the marker",
  "create_marker_disk is symmetric about pixel n // 2, has values in [0, 1], each being the fraction of sub-samples within the radius, for every super-sampling factor; track_marker returns the position of the marker centre in the image.",
  "all shapes, radii, super-sampling factors, displacements", "all sizes and images", [S+"alignment/markers.py: create_marker_disk, track_marker"])
p("C140", "Mask transmission",
  "With a transmittance parameter t the masks of a generator have values between their minimum and maximum transmission: the parameter is the maximum transmittance of the structuring elements, and the contrast between two pixels scales with it.",
  "all masks with values in [0, 1], all t in [0, 1]", "all masks and parameters", [S+"struct_illum.py: MaskGenerator._apply_transmission, MaskGeneratorPoint"])
p("C141", "A mask collection accepts exactly matching stacks of masks",
  "MaskCollection(enc, dec, mask_dims) succeeds exactly when enc has at least mask_dims + 1 dimensions and dec, if given, has the same shape; every failure is a ValueError; buckets times pixels is the number of mask entries.",
  "all shapes and mask dimensions", "all shapes", [S+"struct_illum.py: MaskCollection.__init__, num_buckets, num_pixels"])
p("C142", "Pencil-beam masks scan the image",
  "The full sequential pencil-beam collection measures the pixel values themselves (plus the leaked total when the transmission is partial), and so does its back-projection.",
  "all 2D shapes, images, transmissions", "all shapes and images", [S+"struct_illum.py: MaskGeneratorPoint, ProjectorGhostImaging.fp, ProjectorGhostImaging.bp"])
p("C143", "fbp uses least squares exactly when asked",
  "ProjectorGhostImaging.fbp uses least squares if use_lstsq is True and correlation (back-projection) otherwise.",
  "all mask collections", "all collections", [S+"struct_illum.py: ProjectorGhostImaging.fbp"])
p("C144", "Ghost tomography combines both projectors consistently",
  "ProjectorGhostTomography's fp and bp are adjoint when the two operators are; a mask shape that does not match the tomographic projections raises the documented ValueError, a matching one is accepted; the declared shapes are those of the operator's input and output; fbp works on all supported Python versions.",
  "all masks, projectors, volumes, buckets", "all operators and shapes", [S+"struct_illum.py: ProjectorGhostTomography, ProjectorGhostImaging.__init__"])
p("C145", "The sampling correction rescales about the mean",
  "adjust_sampling_scaling keeps the mean of the reconstruction and divides the deviations from it by the sampling ratio; at full sampling it changes nothing.",
  "all image shapes, images and ratios", "all images", [S+"struct_illum.py: ProjectorGhostImaging.adjust_sampling_scaling"])
p("C146", "XRF detector geometry",
  "DetectorXRF accepts exactly a non-negative surface and a positive distance (scalar or array, as documented); solid_angle_sr is the solid angle in steradians; angle_range_rad is the symmetric range of angles seen by a square detector of that surface.",
  "all surfaces and distances", "all reals", [S+"physics/xrf.py: DetectorXRF"])
p("C147", "Volumes of materials: attenuation, phase, element fractions, emission",
  "VolumeMaterial accepts exactly equally-shaped, equally-numbered fractions and compositions; the attenuation is the fraction-weighted mean of the pure materials'; get_element_mass_fraction returns mass fractions; the parallax check warns whenever the solid angle varies by more than the tolerance over the sample; production of fluorescence and Compton is proportional to the solid angle and vanishes without the element.",
  "all fractions, compositions, voxel sizes, detectors", "all reals", [S+"physics/materials.py: VolumeMaterial"])
p("C148", "Compound density and cross-section",
  "get_compound keeps the name and a given density, refuses unparsable names; without a density it returns that of the mixture of its elements; compound cross-sections lie between those of the elements.",
  "all compounds and element tables", "all reals", [S+"physics/xraylib_helper.py: get_compound, get_compound_cross_section"])
p("C149", "Phase retrieval explains the measured image",
  "The image returned by apply_propagation_filter is part of an image whose propagation is exactly the measured image on the field of view; the chosen filter can be inverted at every frequency.",
  "all images, pixel sizes, distances, wavelengths, materials", "all images and reals", [S+"physics/phase.py: apply_propagation_filter, get_propagation_filter"])
p("C150", "PDHG converges to the minimum",
  "Running PDHG (no tolerance, L2 data term, L1/L1-norm/L2 regularizers, relaxation at most 1) for more iterations brings the objective of the returned volume arbitrarily close to the minimum over the volumes within the limits and the mask, at rate 1/sqrt(iterations); the returned volume respects the limits.",
  "all projectors, data, weights, limits, masks for which a solution exists; all iteration counts >= 2", "the claim is asymptotic: no finite number of runs shows that the distance vanishes, and a wrong step or extrapolation can still decrease for a while", [S+"solvers.py: PDHG.__call__", S+"regularizers.py: update_dual, apply_proximal"])
p("C151", "A minimiser exists and PDHG reaches it when limits are given",
  "With both a lower and an upper limit (or, more generally, when the admissible volumes of bounded objective are bounded) a minimiser of the regularised problem exists, and PDHG's objective converges to the minimum at rate 1/sqrt(iterations).",
  "all projectors, data, weights, limits, masks, iteration counts", "existence and asymptotic statement over all problems", [S+"solvers.py: PDHG.__call__"])
p("C152", "The reconstruction itself converges",
  "PDHG's forward projections converge to those shared by all minimisers; the volume converges, pixel by pixel, to the minimiser when there is only one, in particular when the measured projections determine the volume.",
  "all problems, all tolerances eps > 0", "asymptotic statement over all problems", [S+"solvers.py: PDHG.__call__"])
p("C153", "PDHG with a total-variation or smoothness regulariser reaches the documented minimum",
  "PDHG with an L2 data term, lower and upper limits and a gradient regulariser (TV or smooth) returns volumes whose objective (half the squared residual plus weight times the total variation, or half the squared gradient) exceeds the smallest attainable value by at most a constant divided by the square root of the number of iterations.",
  "all projection matrices, data, masks, shapes, axes, weights, limits and iteration counts, for each padding mode of the gradient",
  "The limit of an iteration for every problem; with the default padding a test on a single image would only show slightly different borders.",
  [S+"regularizers.py: Regularizer_Grad, Regularizer_TV1D, Regularizer_smooth1D", S+"operators.py: TransformGradient", S+"solvers.py: PDHG"])
p("C154", "The nuclear-norm step is the projection onto the spectral ball",
  "Used as the norm of a regulariser (no data), apply_proximal_dual of DataFidelity_ln replaces every matrix taken along its two axes by the nearest matrix whose singular values are all at most 1; the matching penalty is the sum of the singular values.",
  "all arrays, shapes, pairs of distinct axes (positive or negative), all singular value decompositions the library may return",
  "Optimality against every other matrix, for every input and every admissible decomposition.",
  [S+"data_terms.py: DataFidelity_ln.apply_proximal_dual", S+"operators.py: TransformSVD"])
p("C155", "Total nuclear variation couples the channels pixel by pixel, and is total variation for one channel",
  "The dual step of Regularizer_TNV projects, at every pixel, the channels x derivatives matrix onto the matrices with singular values at most 1; for a single channel it divides the gradient vector by max(1, its length), as isotropic TV does.",
  "all numbers of channels and derivatives, all volumes and duals",
  "Holds for every array; the SVD is not unique.",
  [S+"regularizers.py: Regularizer_TNV", S+"data_terms.py: DataFidelity_ln"])
p("C156", "A reference image acts as one more, fixed channel of a multi-channel regulariser",
  "With a reference image (x_ref), the dual step of the multi-channel regularisers (VTV, TNV, vectorial wavelets) counts the reference's gradient or coefficients as an additional channel, so that the penalty is weaker where the reference has edges, and returns the volume's channels.",
  "all exponents, channels, sub-bands, references and duals",
  "Ranges over all numbers of channels and sub-bands; a test with a matching number of channels passes.",
  [S+"regularizers.py: Regularizer_VTV, Regularizer_TNV, Regularizer_vl1wl"])
p("C157", "The nuclear norm can be used as a data term",
  "DataFidelity_ln with data assigned (as the solvers do) performs its dual step on every dual of the data's shape, with its default axes.",
  "all data, shapes and axes",
  "A statement about every shape.",
  [S+"data_terms.py: DataFidelity_ln.apply_proximal_dual"])
p("C158", "SIRT converges to a least-squares solution inside the limits",
  "For any projection matrix (diagonal scaling not distorted by the guard), any data, data mask, volume mask and limits and any relaxation strictly between 0 and 2, the volumes returned by SIRT converge, as the number of iterations grows, to a volume that minimises the weighted squared residual among all volumes obeying the mask and limits; such a minimiser always exists; the excess of the residual decreases at least like 1/iterations, with an explicit constant for relaxation at most 1.",
  "all matrices, data, masks, limits, starts, relaxations in (0,2) and all numbers of iterations",
  "An asymptotic statement over all iteration counts and all problems; tests stop at some iteration.",
  [S+"solvers.py: SIRT, __call__"])
p("C159", "FISTA decreases the objective at the accelerated rate",
  "For any projection matrix, data, masks, limits and l1 weight (or no regulariser), with diagonal steps (relaxation at most 1) or a Lipschitz value that is large enough, after k iterations FISTA's objective exceeds that of ANY admissible volume by at most 2*distance^2/(k+1)^2; the minimisers are exactly the volumes that FISTA leaves unchanged.",
  "all matrices, data, masks, limits, weights, starts, comparison volumes and numbers of iterations",
  "The accelerated rate is a statement over all iteration counts and problems; tests compare a few final errors.",
  [S+"solvers.py: FISTA, __call__"])
p("C160", "MLEM converges to a maximum-likelihood volume",
  "For any non-negative projection matrix without empty columns, positive data and positive start, the volumes returned by MLEM converge, as the number of iterations grows, to a non-negative volume that maximises the Poisson likelihood among all non-negative volumes; the likelihood gap is at most a constant divided by the number of iterations, and the sensitivity-weighted Kullback-Leibler distance to the limit never increases. The division guard is never active when the start is not astronomically unlikely (explicit condition on data and start).",
  "all matrices, data and starts, all numbers of iterations",
  "An asymptotic statement over all iteration counts and problems; tests stop at some iteration.",
  [S+"solvers.py: MLEM, __call__"])
p("C161", "SART converges to a volume that reproduces exact data",
  "If some volume inside the mask and limits reproduces the data exactly, the volumes returned by SART converge to such a volume as the number of sweeps grows, for any order of the projections and relaxation strictly between 0 and 2, and every sweep brings the volume closer to every solution.",
  "all single-projection matrices, data, masks, limits, row orders, starts, relaxations and numbers of sweeps",
  "An asymptotic statement over all sweep counts and problems.",
  [S+"solvers.py: SART, __call__"])
p("C162", "Cone-beam geometry: the voxel size is one pixel demagnified to the rotation axis",
  "In the projection geometry produced from a cone-beam geometry, moving the point of the rotation axis at source height by d voxels horizontally across the beam (or vertically, for an untilted detector) moves its shadow by exactly d pixels along the detector axes, for any source distance, magnification, detector tilt theta and detector rotation; the volume geometry has as many voxels as the detector has pixels (u, u, v) and the same physical extent for every up-sampling.",
  "all cone-beam geometries, displacements, up-samplings",
  "A relation between continuous parameters; tests check a few geometries.",
  [S+"alignment/cone_beam.py: ConeBeamGeometry.get_prj_geom, get_vol_geom"])
p("C163", "Un-preconditioned PDHG and FISTA",
  "With precondition=False (or an operator without absolute(), for which it is the fallback), PDHG and FISTA with their default relaxation converge to the minimum of their objective, as the preconditioned mode does.",
  "all operators, data, limits, masks, regularisers, random starts of the power method, numbers of iterations",
  "the step size depends on a random vector and five power iterations; whether the run converges depends on the whole spectrum of the operator",
  [S+"solvers.py: power_method, compute_Lipschitz_scaling, PDHG.__call__, FISTA.__call__"])
p("C164", "Tuning of the cone-beam geometry; repeated fits",
  "tune_acquisition_geometry changes only the parameters named, one after the other, stays inside the tested range and finds the minimum of a parabolic residual curve to the decimals kept; fitting twice with the same fitter gives the same result, and the projected origin reported is that of the last fit.",
  "all geometries, parameter lists, test values, residual curves, sequences of fits",
  "the residual curve is arbitrary, and rounding is applied at every tested value",
  [S+"alignment/cone_beam.py: tune_acquisition_geometry, ConeBeamGeometry.get_tuning_params, ConeBeamGeometry.update, FitConeBeamGeometry.fit"])
p("C165","PDHG converges to the minimum with every separable data term","With any of the separable data terms (l2, weighted l2, l1, Huber without l2_axis, l2 and l1 with a background tolerance), any combination of the supported regularisers, volume and data masks and limits, either step mode, PDHG approaches the minimum of data term + regularisers over the volumes inside the limits, at rate C/sqrt(iterations); if the minimiser is unique the volumes converge to it.","all operators, data, data terms of the listed kinds, regularisers, masks, limits, iteration counts","a limit statement over infinitely many iterations for every problem",[S+"solvers.py: PDHG",S+"data_terms.py: DataFidelity_l1, DataFidelity_l2, DataFidelity_wl2, DataFidelity_Huber, DataFidelity_l1b, DataFidelity_l2b"])
p("C166","PDHG finds one reconstruction, whatever the data look like","With any separable data term, regularisers, masks and limits - also when the data do not determine the volume and nothing bounds it - a best reconstruction exists, the objective of the PDHG volumes approaches the minimum at rate C/sqrt(iterations), and the whole sequence of volumes converges to one of the best reconstructions.","all operators, data, data terms, regularisers, masks, limits","a limit of infinitely many iterations, for every problem including under-determined ones",[S+"solvers.py: PDHG",S+"data_terms.py"])
p("C167","Emission reconstruction by PDHG converges","With the Kullback-Leibler data term (counts, optionally a non-negative background), a non-negative operator, a non-negative lower limit, any regularisers and masks, a volume minimising KL divergence + regularisation exists, the PDHG volumes converge to one, from some iteration on every logarithm is defined and the objective tends to the minimum.","all non-negative operators, counts, backgrounds, regularisers, masks, limits for which some volume explains the counted pixels","a limit of infinitely many iterations for a loss with singularities",[S+"solvers.py: PDHG",S+"data_terms.py: DataFidelity_KL"])
p("C168", "Denoising an image: what is computed, and when it fails",
  "denoise_image with one weight returns just the image: it never goes below lower_limit, and with more iterations it tends to a minimiser of half the (weighted) squared distance between the blurred result and the image plus the regularisation, over the images above the limit. Without point spread function the internal steps are always admissible, the limit is unique for positive pixel weights, and two images are never mapped further apart than they were. An image that the regulariser does not penalise and that the point spread function leaves alone is returned unchanged after any number of iterations (PDHG never leaves an exact, unpenalised start). With several weights the returned weight lies between the smallest and the largest one and the image is the one of that weight; two weights, or images that are not 2-D, always raise ValueError.",
  "all images, weights, limits, point spread functions (as matrices), regularisers of the modelled kinds, numbers of iterations, leave-out masks",
  "a limit over unboundedly many iterations, an inequality over all images; a test sees a few images and 250 iterations",
  [S+"denoisers.py: denoise_image", S+"solvers.py: PDHG", S+"param_tuning.py: CrossValidation.compute_loss_values, BaseParameterTuning.fit_loss_min, fit_func_min"])
p("C169", "Noise simulation: what is added, what is reported, when it raises",
  "add_noise returns the clean image scaled by photons times efficiency, and a noisy image that is the clean one plus a background (absolute values of normal samples, scaled likewise), passed through Poisson statistics if asked, plus read-out noise if asked. The reported background is the mean of what the background added: never negative, zero without background, exactly photons x efficiency x |average| without spread. Without options the noisy image is the clean image. It raises exactly for a negative spread (the default spread is 5% of the average), a negative rate with Poisson noise, or a negative read-out spread. A negative average therefore always raises, and so do integer data types with Poisson and read-out noise.",
  "all images, scalings, options, random draws", "the claims hold for every random draw; a test sees one seed",
  [S+"testing.py: add_noise"])
p("C170", "Emission sinograms: consistent with the returned volume",
  "create_sino without noise returns a sinogram that is exactly the projection of the volume it returns, whatever the attenuation volumes, flux, dwell time and angles; flux and dwell time only matter through their product; the angles start at the start angle, are equally spaced and exclude the end angle. The point spread function affects the sinogram.",
  "all phantoms, linear projectors, attenuation volumes, angles, fluxes", "an identity over all projectors and volumes",
  [S+"testing.py: create_sino"])
p("C171", "Transmission sinograms: flat-field correction and logarithm give back the line integrals",
  "Noise-free create_sino_transmission followed by apply_flat_field and apply_minus_log returns the (blurred) line integrals of the phantom; counts are positive and do not exceed the flat field where the line integral is non-negative; with noise it raises only for a negative read-out spread.",
  "all phantoms, projectors, point spread functions, fluxes, draws, data types", "an identity over all phantoms and projectors",
  [S+"testing.py: create_sino_transmission", S+"processing/pre.py: apply_flat_field, apply_minus_log"])
p("C172", "Error power",
  "compute_error_power returns the root mean squares of the expected volume and of the difference: non-negative, the second zero exactly for equal volumes, and the powers of expected and computed volume differ by at most the error power.",
  "all volumes of any size", "inequality over all volumes", [S+"testing.py: compute_error_power"])
p("C173", "XRF phantom: every voxel is one material",
  "In the XRF phantom each voxel consists of exactly one of the four materials, and its attenuation is that of the material over one voxel length.",
  "all voxel values, voxel sizes and material data", "holds or fails on measure-zero values a random phantom never hits",
  [S+"testing.py: phantom_assign_concentration, phantom_assign_concentration_multi"])
p("C174", "XRF phantom: which volumes are produced",
  "phantom_assign_concentration_multi returns one volume per element, in order, plus a Compton volume whenever a detector position is given, for any position or array of positions; a list of lines is paired with the elements and must be long enough.",
  "all element lists, line lists, detector positions", "ranges over all lists and positions", [S+"testing.py: phantom_assign_concentration_multi"])
p("C175", "Rounding up to a power of two",
  "roundup_to_pow2(x, p) is the smallest multiple of 2^p not below x, and is idempotent.",
  "all real x (also negative) and natural p", "all numbers", [S+"testing.py: roundup_to_pow2"])
p("C176", "Nuclei phantom: the pixel size follows the field-of-view size",
  "create_phantom_nuclei3d returns pixel sizes such that pixel size times number of pixels is the physical size of the stock volume, for every requested field-of-view size.",
  "all field-of-view sizes", "all sizes", [S+"testing.py: create_phantom_nuclei3d"])
p("C177", "Hyper-parameter evaluation: dispatch", "process_hp_vals evaluates each value by calling the initialization function on the value and the execution function on its solver (or directly on the value), serially, with its own threads (a pool of at least one and at most as many threads as processors for parallel_eval=True) or on the caller's executor; the results come back in the order of the values and do not depend on the mode or on the completion order; if a task raises, the call raises the exception of one of the tasks that raise; anything else (no execution function, a negative thread count, another type) is a ValueError; a function accepted by the setters can be called.", "all task functions, value lists, argument dictionaries, modes, completion orders, processor counts", "a test sees one schedule and one mode at a time; the result has to be the same for all of them", [S+"param_tuning.py: BaseParameterTuning.__init__, task_init_function, task_exec_function, process_hp_vals, _compute_reconstruction, _parallel_compute, _serial_compute, MAX_THREADS"])
p("C178", "Reusing a tuning object", "The outcome of an evaluation does not depend on the evaluations made before on the same object, including failed ones.", "all sequences of calls with arbitrary values, arguments, completion orders and failures", "the state that leaks is the executor's, and only after a failure", [S+"param_tuning.py: process_hp_vals, _parallel_compute"])
p("C179", "Reconstruction error against a ground truth", "compute_reconstruction_error returns, for each value in order, the sum of absolute differences and the sum of squared differences between its reconstruction and the ground truth; both are zero exactly for a perfect reconstruction and l2 <= l1^2 <= n * l2; plotting and verbosity do not change the outcome.", "all images, ground truths, value lists, modes and completion orders", "an identity over all images; the plotting path needs a display", [S+"param_tuning.py: BaseParameterTuning.compute_reconstruction_error"])
p("C180", "L-curve loss values", "LCurve.compute_loss_values returns the loss of each value's reconstruction, in the order of the values, together with the reconstructions and their infos; a loss function without exactly one parameter is refused; an exception in a task or in the loss is raised.", "all loss functions, value lists, modes, completion orders", "must hold for every schedule", [S+"param_tuning.py: LCurve"])
p("C181", "Cross-validation rounds", "CrossValidation.compute_loss_values evaluates every value once per round, passing the round's own mask under the mask parameter name (overriding what the caller passed under it) and the caller's other arguments unchanged; it returns the mean and the population standard deviation over the rounds of the final relative cross-validation residual, and the results of each round; a failure in any round is raised; an execution function that can be called with the mask is accepted.", "all masks, numbers of rounds, task functions, argument dictionaries, modes, completion orders per round", "the mask seen by a task depends on the round and the dictionary's history", [S+"param_tuning.py: CrossValidation.compute_loss_values"])
p("C182", "Cross-validation statistics", "The average lies between the smallest and the largest round, the standard deviation is non-negative, zero exactly when all rounds agree, at most half the spread, and no round is further than sqrt(n) standard deviations from the average; the order of the rounds is irrelevant.", "all numbers of rounds and all loss values", "inequalities over all real values", [S+"param_tuning.py: CrossValidation.compute_loss_values"])
p("C183", "Cross-validation threads and masks", "In every interleaving of the main thread and the workers each task reads the mask of its own round from the shared argument dictionary, every task of every round runs exactly once, and the evaluation never gets stuck; K-fold masks leave each pixel out in exactly one round and random masks leave out ceil(fraction * size) pixels.", "all interleavings, numbers of rounds, values and threads, shapes, permutations", "the dictionary is shared and mutated between rounds: a race would show only under some schedules", [S+"param_tuning.py: CrossValidation, _parallel_compute, create_random_test_mask, create_k_fold_test_masks"])
p("C184", "Performance statistics", "For any clock that does not run backwards: a batch's total time is preparation plus processing, a task's total is initialization plus execution, all are non-negative; run serially the tasks' total is at most the processing time; with W workers it is at most W times the batch's total time, and no task exceeds the batch's total; the processing time covers the tasks.", "all clock readings, task counts, distributions over workers", "timings cannot be controlled in a test", [S+"param_tuning.py: _compute_reconstruction, _parallel_compute, _serial_compute, PerfMeterTask, PerfMeterBatch"])
p("C185", "Undecimated wavelets reconstruct", "For every perfect-reconstruction filter bank, number of levels, set of axes and image, the adjoint (inverse) undecimated transform of the direct transform is the image, normalised or not, whatever the padding on demand; without padding on demand a transformed size that is not a multiple of 2^level raises ValueError, and nothing else does; every orthogonal wavelet is such a bank.", "all banks, levels, axes (negative too), shapes, padding modes, images", "tests try a few wavelets and sizes; the property rests on the filter identities and on the padding/cropping for every residue of the size", [S+"operators.py: TransformStationaryWavelet.direct_swt, inverse_swt, _op_direct, _op_adjoint"])
p("C186", "Adjointness of the undecimated wavelet transform", "The normalised transform of an orthogonal wavelet and its adjoint satisfy <W x, y> = <x, W' y> for every image and coefficient array, for every size and padding-on-demand mode.", "all orthogonal banks, levels, axes, shapes, padding modes, images and coefficients", "depends on the residue of the sizes modulo 2^level and on the padding mode", [S+"operators.py: TransformStationaryWavelet"])
p("C187", "Energy of undecimated wavelet coefficients", "The normalised transform preserves the energy of the (padded) image; the unnormalised one multiplies it by a factor between 2^axes and 2^(axes*levels); the primal-dual step bound of the wavelet regulariser, computed from the coefficients' count, holds.", "all orthogonal banks, levels, axes, shapes, images", "an inequality over every image", [S+"operators.py: TransformStationaryWavelet", S+"regularizers.py: Regularizer_swl.initialize_sigma_tau"])
p("C188", "Shift invariance of the undecimated transform", "Shifting the image circularly by any amount along any axis shifts every sub-band by that amount, for sizes that are multiples of 2^level.", "all banks, levels, axes, shapes, shifts, images", "one equation per shift, axis and image", [S+"operators.py: TransformStationaryWavelet.direct_swt"])
p("C189", "Arguments and sizes of the decimated transform", "The constructor works with its default arguments and with every padding mode its documentation lists; in periodization mode the coefficient array has the image's size when the sizes are multiples of 2^level, in the other modes it is never smaller, and larger for filters of more than two taps.", "all modes, levels, sizes, filter lengths", "sizes follow a recursion over the levels", [S+"operators.py: TransformDecimatedWavelet.__init__"])
p("C190", "The decimated transform is orthogonal", "In periodization mode with sizes multiple of 2^level: the inverse of the transform gives the image back for every alias-free perfect-reconstruction bank; for an orthogonal wavelet the transform is an orthogonal matrix: the adjoint is the inverse on both sides and inner products are preserved.", "all banks, levels, axes, shapes, images, coefficients", "an identity for every image and coefficient array, through nested levels", [S+"operators.py: TransformDecimatedWavelet.direct_dwt, inverse_dwt, _op_direct, _op_adjoint"])
p("C191", "Proximal step of the decimated-wavelet regulariser", "The in-place proximal step on an image gives the unique minimiser of half the squared distance plus tau * weight times the l1 norm of the wavelet coefficients, the approximation band counted only when minimised, for every step and weight.", "all orthogonal banks, levels, shapes, weights and steps (also arrays), images", "optimality is a statement about every competing image", [S+"regularizers.py: Regularizer_dwl.apply_proximal_primal"])
p("C192", "SIRT with per-pixel weights solves the weighted least-squares problem", "With the weighted data term and non-negative weights, the volumes SIRT returns tend, as the iterations grow, to an admissible volume of least weighted squared residual (weights: the given ones times the inverse row sums), the cost decreasing like 1/iterations, and the volumes SIRT leaves unchanged are exactly the solutions, for every admissible relaxation.", "all matrices, data, weights, limits, masks, backgrounds, starts, relaxations", "convergence is a statement about all iteration counts", [S+"solvers.py: SIRT.__call__", S+"data_terms.py: DataFidelity_wl2"])
p("C193", "SIRT with the tolerance-band data term", "With the tolerance-band data term SIRT tends to an admissible volume of least squared deviation beyond the band, leaves volumes alone whose projections are all within sqrt(local_error) of the data, and reaches projections within that band when some admissible volume has them.", "all matrices, data, local errors, limits, masks, starts, relaxations below 2", "convergence is a statement about all iteration counts", [S+"solvers.py: SIRT.__call__", S+"data_terms.py: DataFidelity_l2b"])
p("C194", "SIRT with the Kullback-Leibler data term", "With the Kullback-Leibler data term SIRT's volumes settle down: they tend to a volume that minimises a sum of pixel costs each of which is least where expected and measured counts agree, and for noiseless data the limit reproduces every measured count.", "all emission problems (nothing negative), limits, masks, starts, relaxations", "convergence is a statement about all iteration counts", [S+"solvers.py: SIRT.__call__", S+"data_terms.py: DataFidelity_KL.compute_residual"])
p("C195", "FISTA with per-pixel weights or tolerance bands keeps its accelerated rate", "With the weighted or the tolerance-band data term, with or without an l1 regulariser, the cost of FISTA's volumes exceeds that of any admissible volume by at most a constant over (iterations+1)^2, with an explicit constant, and the volumes it leaves unchanged are exactly the minimisers; the tolerance band is sqrt(local_error).", "all matrices, data, weights, local errors, l1 weights, limits, masks, starts, both step-size modes", "a rate bound over all iteration counts and all competing volumes", [S+"solvers.py: FISTA.__call__", S+"data_terms.py: DataFidelity_wl2, DataFidelity_l2b"])
p("C196", "Which data terms each solver accepts", "Data terms may be given by name (letters in any case): every solver knows 'l2', all but FISTA know 'kl', only PDHG knows 'l1', and any other name is an error.  Given as an instance, PDHG takes any data term, FISTA the least-squares family, SART/SIRT/MLEM the least-squares family and Kullback-Leibler, and everything else is an error; the same holds for the test data term, and FBP ignores both.", "all names, all kinds of data terms, all solver classes, data term and test data term", "all strings and all combinations of class and argument", [S+"solvers.py: Solver.__init__, Solver._initialize_data_fidelity_function, PDHG._initialize_data_fidelity_function, FISTA._initialize_data_fidelity_function"])
p("C197", "Solvers never touch the data term they were given", "Whatever a program does with solvers, a data-term object the program made keeps its data, step sizes and background until the program itself assigns them, and a solver's results depend on nothing that the program does to other objects or other solvers: each solver works on copies of its own.", "all programs: sequences of constructions, assignments and solver calls, failing or not", "all histories", [S+"solvers.py: Solver.__init__, Solver._initialize_data_fidelity_function, SIRT.__call__, MLEM.__call__, PDHG.__call__, FISTA.__call__", S+"data_terms.py: DataFidelityBase.assign_data"])
p("C198", "A solver can be called again and again", "What a solver call returns depends on the solver's construction and on the call's arguments only, not on the calls made before, failed or not.", "all programs, all solvers but SART and FBP, all arguments", "all call histories", [S+"solvers.py: SIRT.__call__, MLEM.__call__, PDHG.__call__, FISTA.__call__", S+"data_terms.py: DataFidelityBase.assign_data"])
p("C199", "Backgrounds per detector pixel", "A data term whose background is an array, one value per detector pixel, works in every solver that takes data terms, with and without cross-validation, and MLEM's description names its background.", "all programs, shapes of background arrays, arguments", "all combinations of class, shapes and histories", [S+"solvers.py: MLEM.info, MLEM.__call__, SIRT.__call__, PDHG.__call__, FISTA.__call__"])
p("C200", "The regularizer argument", "None, one regularizer, or a sequence of regularizers are accepted and kept in order; a sequence with a foreign element is an error whose message lists the positions of the foreign elements; anything else is an error.", "all arguments", "all sequences", [S+"solvers.py: Solver._initialize_regularizer"])
p("C201", "FISTA checks its regularizer", "FISTA takes no or one regularizer; it is rejected at construction exactly when it cannot be used in the iterations, that is, when it has no proximal step on the volume.", "all regularizer classes, norms, states of the object", "all combinations of class, norm and history of the object", [S+"solvers.py: FISTA.__init__, FISTA._initialize_regularizer, FISTA.__call__", S+"regularizers.py: BaseRegularizer.apply_proximal_primal, Regularizer_swl, Regularizer_dwl, Regularizer_fft"])
p("C202", "Reconstructions in threads", "Reconstructions run at the same time in several threads return what they would return one after the other, in whatever order the threads are scheduled.", "all schedules, arguments and solvers", "all interleavings", [S+"solvers.py: Solver.__init__, SIRT.__call__"])
p("C203", "SART: the reported residuals and the stopping tolerance", "With no tolerance SART runs all requested iterations and reports none, and the volume does not depend on whether a tolerance is given as long as it never stops it. With a tolerance iteration k reports the norm of the masked residual of the volume after its k-th sweep, the norm at the start is reported too, and the iteration stops after the first sweep whose residual is below the tolerance.", "all operators, data, masks, starting volumes, iteration counts, tolerances and sinogram shapes", "the angle and pixel axes of the residual only collide for particular sinogram shapes, and equal sizes hide a transposition that symmetric phantoms do not show", [S+"solvers.py: SART.compute_residual, SART.__call__"])
p("C204", "Vertical pre-alignment finds the vertical displacements", "When every projection's vertical profile is the same feature, displaced by a whole number of rows and with its own gain and offset, and the feature stays within view, the vertical pre-alignment returns exactly these displacements minus their mean, rounded to the requested decimals, with and without the derivative, the mask, the normalisation or the real transform.", "all numbers of rows, projections and columns, features, displacements, gains, offsets, masks and settings", "the result depends on the parity of the padded length and on every displacement, and on a sub-pixel fit of a circular correlation", [S+"alignment/shifts.py: DetectorShiftsPRE.fit_v", S+"alignment/fitting.py: refine_max_position_1d, extract_peak_regions_1d"])
p("C205", "integer and boolean data give the floating-point answer",
  "Passing the sinogram, the masks, the test mask or the starting volume as integer or boolean arrays gives the same reconstruction and the same residuals as passing the same numbers as floating-point arrays.",
  "all operators, data, masks, starting volumes, numbers of iterations, and all combinations of kinds of numbers",
  "whether an in-place operation can cast depends on the combination of kinds of six arrays and on whether the loop gets past its stopping test; a test tries a few dtypes",
  [S+"solvers.py: power_method, compute_diagonal_scaling, _initialize_b_masks, SART.compute_residual, SART.__call__, MLEM.__call__, SIRT.__call__, PDHG.__call__, FISTA.__call__", S+"data_terms.py: compute_residual, initialize_dual, update_dual"])
p("C206", "rotation and scale of an image by log-polar spectra",
  "fit_image_rotation_and_scale returns the rotation (modulo half a turn) and the scale between two images: the same image gives (0, 1), a rotated spectrum its angle with scale 1, whatever the displacement of the second image; images of different shapes raise ValueError.",
  "all image contents, even and odd sizes, paddings, windows and rotations by whole degrees of the polar spectrum",
  "which samples of the spectrum enter depends on the parity of the size and the position of the zero frequency; a test rotates one picture of one size",
  [S+"alignment/fitting.py: fit_image_rotation_and_scale"])
p("C207", "binned mask collections keep buckets, transmissions and pairing",
  "bin_masks(b) with an integer b returns a collection with the same number of masks and a field of view divided by b (rounded up), whose pixels are block means; buckets of blocky images are b^2 times the buckets of the binned masks, transmissions in [lo, hi] stay there, collections without separate decoding masks stay so, and get_mask returns the mask at the given (possibly negative) shifts or raises IndexError.",
  "all stacks of masks, stack shapes, fields of view (divisible by b or not), binnings, images and index tuples",
  "block means over fields of view that the binning does not divide, and which axes are binned, depend on the shape and the dimension of the masks; a test bins one square collection",
  [S+"struct_illum.py: MaskCollection.bin_masks, MaskCollection.get_mask, MaskCollection.__init__", S+"processing/pre.py: bin_imgs"])
p("C208", "the classical filters of filtered back-projection",
"FilterFBP accepts exactly the names ramp, shepp-logan, cosine, hamming and hann, in any capitalisation, and raises ValueError otherwise. With zero padding, the ramp filter replaces each line by its convolution with the Ram-Lak kernel (1/2 at zero, -2/(pi d)^2 at odd, 0 at even distances) times pi / (2 number of angles), with no wrap-around. Every filter's response lies between zero and the ramp, which is strictly between zero and one; filtering a mirrored line gives the mirrored filtered line; the filtered line never anti-correlates with the line, and is bounded by pi / (2 number of angles); the ramp and hamming filters lose no information. The real and the complex transform (use_rfft) give the same result.",
"every filter name, every line length, number of angles and line of data, both settings of use_rfft",
"The tests run one or two filters on one phantom; that a response is positive and its kernel exact for every padded size is an analytic statement about infinitely many sizes, and the agreement of the two transforms depends on the symmetry of each window.",
[S+"filters.py: FilterFBP.__init__, FilterFBP.compute_filter, Filter.__call__, Filter.apply_filter"])
p("C209", "cone-beam calibration from points to geometry",
"FitConeBeamGeometry(size, points of two orbits, axis points).fit(r) returns the geometry of the acquisition (distance, radius, detector offsets, tilt and rotation) with the frame size and pixel size that were given, when the points are exact. Without measured axis points the same holds for an upright detector with opposite points. Orbits in the wrong order raise ValueError. Sizes, points and axis points of other shapes than documented raise errors, and fit raises nothing but ValueError (leaving the object unchanged when the distance cannot be computed).",
"all geometries with theta = 0 looking at the orbit from outside, all frame and pixel sizes, numbers and positions of points that determine the ellipses, heights of the orbits, with or without a measured distance, and all argument shapes",
"the result chains four estimates (rotation, two ellipse fits, distance) over continuous parameters; tests calibrate one geometry from one set of points, with a tolerance",
[S+"alignment/cone_beam.py: FitConeBeamGeometry.__init__, FitConeBeamGeometry._initialize, FitConeBeamGeometry.fit, _get_rot_axis_angle_deg", S+"alignment/fitting.py: fit_ellipse, fit_ellipse_center, fit_ellipse_parameters"])
p("C210", "default geometries, source positions and mismatched angles",
  "get_prj_geom_parallel and get_prj_geom_cone return one source before the rotation axis (at distance one, or the given distance), detector axes along x and z, one voxel per pixel, the rotation axis -z for 'clockwise', +z for 'counter-clockwise' (any capitalisation) or the given vector, and the detector at the origin or moved along x by the requested rotation-axis shift(s), and along z by vertical shifts only in three dimensions; any other direction name raises ValueError. Rotating such a geometry by a turns the source and the detector by +a or -a about z according to the name (reversed for two-dimensional geometries with the ASTRA patch). The detector shape is read from the data; ValueError when U (or V in three dimensions) is not in the data. set_source_shifts_vu keeps the coordinate along the beam and replaces the others; None changes nothing; another number of positions than of sources raises ValueError, and so does rotate() with another number of angles than of rows. combine_shifts_vu pairs vertical and horizontal shifts of every number of projections and refuses arrays that do not match.",
  "all direction names and vectors, capitalisations, shifts, data shapes and formats, source distances, angles, numbers of rows",
  "unit tests use one name, one shape and one shift; the mapping must hold for every string, every list of angles and every number of rows",
  [S+"models.py: get_rot_axis_dir, get_prj_geom_parallel, get_prj_geom_cone, combine_shifts_vu, ProjectionGeometry.set_source_shifts_vu, ProjectionGeometry.rotate"])
p("C211", "Scikit-image backend: one row per angle, plain back-projection, and what it silently gets wrong",
"With the scikit-image backend (a projector built with backend 'skimage', i.e. ProjectorBackendSKimage): initialize_geometry accepts exactly the volumes that are not 3-D, with no rotation-axis shift and no projection geometry, and raises ValueError for all the others; for an n x n volume of unit voxels and w angles the announced sinogram shape is [w, n]. For floating-point n x n volumes (n >= 2), fp(vol) has that shape and its row k is exactly fp(vol, angle_ind=k), the line that scikit-image's radon computes at angle k; bp(prj) is the plain sum over the angles of bp(prj[k], angle_ind=k), with no left-over factor of pi; and whenever scikit-image's smearing is, angle by angle, the adjoint of its projection, bp is the adjoint of fp. An angle index i in range, negative ones included, selects projection i as for any Python sequence. REFUTED: (a) index -1 selects nothing: fp(vol, -1) returns, without raising, an array of no samples, as it does for every index out of range, and bp(prj, -1) raises ValueError; (b) with voxels of another size, such that floor(n * size) is not n, fp(vol) raises ValueError although single-angle projections work (and have n samples); (c) a volume of one slice, [n, n, 1], is accepted at initialisation but every fp raises ValueError; (d) for integer volumes every sinogram whose exact values stay below the largest integer of the dtype is identically zero, while single-angle projections are not; (e) for integer sinograms every angle is truncated before the factor 2/pi, so that w angles each smearing 1 give 2 w / pi instead of w.",
"every volume size n >= 2, every list of angles, every image, sinogram, angle index and voxel size; every per-angle projection and smearing function in the place of scikit-image's",
"The mistakes appear for one index (-1), for integer arrays or for voxel sizes that tests do not use, with no exception in the worst cases; adjointness over all images needs the algebra.",
[S+"_projector_backends.py: ProjectorBackendSKimage.initialize_geometry, fp, bp; ProjectorBackend.initialize_geometry"])
p("C212", "with-blocks on a projector: nothing native survives, exceptions pass through, the projector stays usable",
"For an ASTRA projector (either backend) that has just been constructed: once a block 'with projector:' has been entered, then whatever sequence of full and single-angle projections the block makes, whichever of them raise and whichever of their native calls fail, after the block no native projector, data object or algorithm is alive, none was deleted twice, and the outcome of the statement is the outcome of the block (an exception raised inside is the one the caller sees). When no native call fails the same holds for every nesting of with-blocks and calls on one projector, and the projector can always be entered again. REFUTED: if the native toolbox fails while the block is being entered, the block's exit never runs and the projectors already made stay alive.",
"every number of angles, with or without individual projectors, every sequence and nesting of blocks and calls, every pattern of native failures within a block",
"Leaks and double frees depend on which native call fails and on the order of calls; the number of schedules is unbounded.",
[S+"projectors.py: ProjectorUncorrected.__enter__, __exit__", S+"_projector_backends.py: ProjectorBackendASTRA.make_ready, dispose, fp, bp"])
p("C213", "Constructing a projector: what is accepted, the fall-back backend, and which way a PSF acts",
"ProjectorUncorrected(vol_geom, angles, shift, prj_geom, psf, backend) without a PSF succeeds exactly for 2-D or 3-D volumes with equal X and Y sizes on a backend that is a known name ('astra', 'skimage') or a backend object (an ASTRA one only where ASTRA and CUDA are available), and, with the scikit-image backend, only for volumes that are not 3-D, with no shift and no geometry; every refusal is a ValueError. Without ASTRA, asking for 'astra' is exactly asking for 'skimage', so the defaults always work for 2-D and refuse 3-D volumes. On ASTRA (no geometry) a PSF is accepted when it has at least one axis longer than one and fewer such axes than the volume has dimensions, and refused with ValueError when it has as many or more; its kernel for all the projections has a single tap along the angle axis and the given taps otherwise (a 1-D one acts along the detector rows, a 2-D one over both detector axes). REFUTED: (a) a PSF that is a number, or a kernel of a single tap, raises IndexError; (b) a vertical PSF, k rows by one column, is silently applied horizontally, exactly like the same k values in one row; (c) with a one-slice 3-D volume [n, n, 1] and a 1-D detector shape, a 2-D PSF is accepted although the projections have one detector axis.",
"every volume shape, angle list, backend argument, installation, PSF shape and values",
"The combinations of arguments are too many to enumerate, the fall-back depends on the machine, and a horizontal instead of a vertical blur looks plausible in the result.",
[S+"projectors.py: ProjectorUncorrected.__init__, _set_psf", S+"operators.py: TransformConvolution.__init__"])
p("C214", "What the ASTRA backends accept and return: shapes, order of the axes, single angles",
"With either ASTRA interface: a volume given in the volume's own shape reaches the toolbox element by element; a volume is accepted exactly when it has the right number of elements, every refusal of fp being a ValueError; asking for one angle without single projectors is a ValueError. A sinogram in its own shape is accepted by bp unchanged and gives a volume of the volume's shape; an array of the same rank is accepted only in exactly that shape when the detector axes are longer than one (so axes cannot be permuted), and a wrong detector width is a ValueError. In 2-D a line of u values is accepted with or without a leading axis of one and no other length is; what fp returns can be given back to bp, for one angle and for all (the two interfaces return different shapes for one angle); in 3-D [v, 1, u] is accepted, and the direct interface's full sinogram can be given back. REFUTED: (a) a volume whose axes are in another order is refused (it is accepted and read in the wrong order); (b) in 3-D, the line that fp(vol, angle) returns can be given back to bp (IndexError with both interfaces as soon as there is more than one detector row: single-angle round trips and SART fail); (c) with the traditional interface in 3-D the full sinogram can be given back (IndexError exactly when there is more than one row and a single angle or a single column).",
"every volume and detector shape, number of angles, given shape and content, both interfaces, with and without single projectors",
"The outcome depends on the combination of every axis length being one or not, and a permuted array looks like valid data.",
[S+"_projector_backends.py: ProjectorBackendASTRA._check_data, _check_prj_shape, fp, bp", S+"_projector_backends.py: ProjectorBackendDirectASTRA.fp, bp", S+"solvers.py: SART.__call__"])
p("C215", "Super-sampling of voxels and pixels",
"The numbers of samples per voxel and per pixel that the ASTRA backends ask for are never less than the super-sampling given; the voxels' equals it when the voxels are not larger than the pixels and the pixels' when the voxels are not smaller; each is super_sampling times the ratio of the sizes rounded down by less than one, exact for voxels m times larger or m times smaller; they never decrease when the super-sampling grows. REFUTED: fractional ratios are honoured (a voxel of one pixel and a half gets one sample with super_sampling = 1).",
"every super-sampling and every positive voxel size, in exact arithmetic",
"Voxel sizes are arbitrary positive reals.",
[S+"_projector_backends.py: ProjectorBackendASTRA.make_ready, ProjectorBackendDirectASTRA.make_ready"])
p("C216", "The two residuals of the Kullback-Leibler data term",
"compute_residual(..., use_proximal=False) of the Kullback-Leibler term is, in each pixel and wherever projection plus background exceeds the float32 epsilon, minus the derivative of the Poisson cost (expected - counts * log expected, negative counts taken as zero) with respect to the projection, times the mask. Both residuals, this one and the default one, are positive exactly where more was counted than expected, zero exactly where they agree, negative otherwise; the default one always lies between -1 and sqrt(sigma * counts). Masked pixels contribute zero to both; without data the plain one is minus the mask; at a projection of at most epsilon the plain one is counts/epsilon - 1, never infinite.",
"every data, background, mask, projection and positive sigma",
"The sign and size statements range over all reals; a sign error gives plausible numbers.",
[S+"data_terms.py: DataFidelity_KL.compute_residual, apply_proximal_dual"])
p("C217", "rotate_proj_stack turns every projection on its own, about the detector centre",
"rotate_proj_stack(data_vwu, angle) on floating-point [v, w, u] stacks: the result at angle w only depends on the projection of angle w; 0 degrees gives the stack back, 180 degrees reverses both detector axes, 90 degrees with a square detector turns rows into columns; it is linear in the data; the values stay between the smallest and largest of the data and zero; a constant stays that constant wherever the pixel comes from inside of the detector; a pixel keeps its distance from the centre; stacks that do not have three axes raise IndexError. REFUTED: integer stacks can be rotated: for unsigned integers of any width the result is zero everywhere, at every angle including 0, unless some pixel is saturated.",
"every stack, every angle, every integer width; exact real arithmetic",
"Angles and data are arbitrary; the loss of integer data is silent.",
[S+"processing/pre.py: rotate_proj_stack"])
p("C218", "compute_attenuation with scikit-image's own rotation",
"With the rotation scikit-image performs (bilinear, zero outside, no clipping), the attenuation maps of non-negative absorption lie in (0, 1], get darker where absorption grows, multiply when absorptions add, are one everywhere without absorption, and at angle 0 hold the transmission from the first row to the centre of the pixel.",
"every slice size, absorption, angle and direction; exact real arithmetic",
"The rotation is applied three times with angle-dependent weights; C55 assumed what is proved here.",
[S+"_projector_backends.py: compute_attenuation"])
p("C219", "background_from_margin: accepted arguments and what comes back",
"background_from_margin(data, margin, poly_order) accepts one number, a sequence of one number or a pair (the first two mean the pair (m, m)), refuses margins of several axes (NotImplementedError), empty ones and lines without a w axis (IndexError) and margins together wider than the row (ValueError), and nothing else. For an image the result has its shape; for a stack it is one image [1, w, u] for order zero or when a margin is zero, and a stack [v, w, u] otherwise; it can always be subtracted from the data. Order zero gives the mean of the margin samples of the row over the whole stack; a positive order recovers polynomial backgrounds at every pixel. REFUTED: longer margins are accepted and their extra entries make the background too small; polynomial backgrounds of integer images are cut to whole numbers.",
"every image or stack, margin and order; any least-squares fit; exact real arithmetic",
"Shapes, margins and orders are arbitrary; the numeric fit is only known by its contract.",
[S+"processing/pre.py: background_from_margin"])
p("C220", "get_propagation_filter: the two filters belong together",
"The two filters returned by get_propagation_filter are a Fourier pair: with its middle pixel moved to the origin the real-space filter has the Fourier filter as its spectrum, so convolving periodically with the one is multiplying the spectrum by the other. The real-space filter is point symmetric about the middle pixel; without propagation it is one there and zero elsewhere; for TIE (and a non-negative product of distance, wavelength and delta over beta) its largest absolute value is at the middle and at least 1. With use_rfft the Fourier filter is the kept half of the full one, for even and odd lengths, and the real-space filter is the same.",
"every shape, pixel size, distance, wavelength, material, both filter types; exact real arithmetic",
"Shapes and frequencies are arbitrary; even and odd axes differ.",
[S+"physics/phase.py: get_propagation_filter"])
p("C221", "Elements, tabulated compounds and delta over beta",
"get_element_number and get_element_number_and_symbol agree with each other and are stable when repeated (REFUTED: both accept numpy integers). get_compound takes elements and fractions from the table of known compounds first, then from the parser, and refuses names neither knows; REFUTED: a tabulated compound without an explicit density has its tabulated density -- it is overwritten by one computed from the elements, too small by any factor (water: about 0.001). get_delta_beta does not depend on the density when refraction and absorption are proportional to it, and uses a given density; get_delta_beta_curves returns one curve per compound in order, with the value of get_delta_beta at equally spaced energies including both ends, and nothing if one compound is unknown.",
"every table, parser, compound, density, energy range; exact real arithmetic",
"The tables are external and arbitrary; the tests use a handful of compounds.",
[S+"physics/xraylib_helper.py: get_element_number, get_element_number_and_symbol, get_compound", S+"physics/phase.py: get_delta_beta, get_delta_beta_curves"])
for q in P: print(json.dumps(q))
