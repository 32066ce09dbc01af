# Formal model of PyCorrectedEmissionCT in Rocq (Coq 8.16.1)

## 1. Approach

The code base is numerical Python. The model is a *shallow* Gallina embedding, one
Gallina definition per Python function/method, mirroring its branches; each definition
cites the file and lines it models. Exceptions are values (`Err kind`), mutable objects are
explicit heaps/states, library calls (ASTRA, FFT, SVD, pywt, xraylib, thread pools, RNG)
are Section variables / arguments whose assumed behaviour appears as an explicit hypothesis
of the theorem.

* **Numbers.** Floating point numbers are modelled by the reals `R` of Coq's standard
  library (no rounding, no NaN/inf, no dtype). Statements about float round-off are out of
  scope. Where the code can divide by zero, the theorem carries the guard, or the failing
  input is the subject of a `_refuted` theorem. (`x/0` in Coq's R is an unspecified real, so
  no theorem may depend on its value.)
* **Arrays.** A vector of length n is a function `nat -> R` together with n (only indices
  below n matter), or a `list` where lengths/slices/padding are the subject. N-dimensional
  arrays are functions of a multi-index `list nat` together with a shape `list nat`; the
  solver model flattens volumes and sinograms (all solver operations are element-wise or
  applications of the operator).
* **Schedules.** A thread pool is a permutation of task completions chosen by an adversary;
  theorems quantify over all of them.
* **Random draws.** RNG results (permutations, masks) are arguments constrained only by
  what NumPy guarantees (e.g. "is a permutation").

File layout: `theories/XModel.v` definitions only (model of the code, cited);
`XSpec.v`/spec sections: independent specification vocabulary (prox, adjoint, conjugate …);
`XProofs.v` and auxiliary files (Sums, Convex, Arrays, Rounding, Reindex, Fourier*, Compact,
QuadChar, PdhgConv, SolversGeneric, SolversConv): lemmas; `XProps.v`: the property theorems
`Cnn_...`, their specification vocabulary, and `Cnn_example`s showing that the hypotheses are
satisfiable. `Assumptions.v` runs `Print Assumptions` on all of them.

A property that the faithful model violates has a theorem `…_refuted` (a witness of the
violation); where useful a companion theorem states the exact condition under which it holds.

## 2. Plan per property

See `properties.jsonl` for the full statements, `MANIFEST.json` for the theorems, status and
what is missing or refuted.

| ID | model | proof method |
|----|-------|--------------|
| C01 | `BaseTransform` record with direct/adjoint functions, direction flag, shapes; `explicit` columns | linearity, induction on dimension |
| C02 | `_transpose` on that record, twice | witness (refuted); positive for ProjectorMatrix override |
| C03–C05 | pad/diff on multi-index arrays | summation by parts, induction over axes |
| C06 | pad, 'same' convolution, crop in any dimension | re-indexing of double sums |
| C07–C09 | pad arithmetic, list packing, axis permutations | lia / induction / permutations |
| C10–C15, C18 | prox formulas of the data terms | exact minimisation: square completion / monotonicity, conjugates as suprema |
| C16, C17 | residual functions on vectors | direct / witness |
| C19 | heap of norm objects, constructors with shared default objects | witness + frame theorem |
| C20–C23 | limits, step sizes, masks of the regularisers | case analysis, absolute row/column sums |
| C24–C31, C39 | solver loops as recursive functions on states, arbitrary operators | loop invariants, two-run relations, Jensen/Cauchy–Schwarz descent |
| C32–C33 | PDHG loop | Cauchy–Schwarz, convex optimality |
| C34–C36 | FISTA loop | recurrences, witness |
| C37–C38 | MLEM loop | sum manipulation, EM (Jensen with ln) |
| C40 | power method | operator-norm bounds |
| C41–C47, C99, C100 | parameter tuning bookkeeping, schedules as permutations, keyword dictionaries | induction, permutations |
| C48–C51, C101–C107 | geometry objects, rotation matrices, slicing, shapes | trigonometric identities, list lemmas |
| C52–C54, C108–C110 | state machine of native handles with failing calls; ASTRA vectors | invariant over all operation sequences; algebra |
| C55 | rotation/cumsum/exp attenuation pipeline | monotonicity |
| C56–C58, C111, C112 | projector functions over an abstract backend | sums, permutations |
| C59–C62, C113–C115 | filter arithmetic, bases, least squares | nat arithmetic, orthogonality, projection theorem |
| C63–C73, C121–C129 | processing functions | finite sums, Cauchy–Schwarz, exact DFT identities |
| C74–C83, C130–C139 | fitting and alignment, cone-beam calibration | algebra, DFT shift theorem, ellipse identities |
| C84–C87, C140–C145 | masks of structured illumination, MURA | number theory (`Znumtheory`, quadratic characters), counting, algebra |
| C88–C93, C146–C149 | physics helpers, phase filters | algebra, real analysis of sin/cos/atan |
| C94 | diagonal preconditioners at any scale | witness + condition |
| C95 | `absolute()` of a convolution | witness + condition |
| C96 | VTV step at one pixel | projection inequality; witness for the infinite exponent |
| C97, C98 | wavelet regularisers: dictionary keys, sub-band lists, step sizes | list induction, sums |
| C116–C118 | exact DFT over all axes | Plancherel, inversion, separability |
| C119, C120 | numpy norm rules by dimension; primal–dual gap | case analysis, Fenchel |
| C150 | PDHG loop with diagonal steps and matrix regularisers | Lyapunov function of Pock–Chambolle, telescoping, O(1/sqrt k) on the last iterate |
| C151 | the same; existence of a saddle point | compactness (Bolzano–Weierstrass in R^n, `Compact.v`), limits of ergodic averages |
| C152 | the same | Opial-type argument, strict growth of the data term |
| C153 | gradient regularisers as matrices, then C150–C152; default padding | row/column sums (C22), adjointness (C03); invariant "pixel 0 stays 0" for the refutation |
| C154, C155 | DataFidelity_ln through an arbitrary SVD | Bessel, Cauchy–Schwarz, variational inequality |
| C156, C157 | shapes and values of the reference channel / data rows | monotonicity of norms, shape arithmetic, witness |
| C158, C159 | SIRT and FISTA as projected/proximal gradient steps in the metric of the diagonal steps (ProxGrad.v), existence of constrained least-squares solutions by successive halving (LsExist.v) | three-point inequality, energy function, Fejér monotonicity, compactness |
| C160 | MLEM iterates as an EM sequence (EmConv.v) | Jensen in every voxel gives a Fejér-type inequality in Kullback-Leibler distance; cluster point, Karush-Kuhn-Tucker |
| C161 | SART sweeps as products of contractions in the metric of the common column sums | contraction + energy gain per row, cluster point satisfies each projection (induction over prefixes of the sweep); witness for unequal weights |
| C162 | get_prj_geom ratio against the shadow specification; get_vol_geom | similar triangles (polynomial identities) |
| C163 | power_method with 5 iterations, Lipschitz scaling inside the PDHG/FISTA calls | PDHG convergence proof re-done for any admissible steps; divergence by an exact two-term recurrence |
| C164 | tune, get_tuning_params, update, cb_fit twice | parabola lemmas of C132, rounding, case analysis |
| C165 | the PDHG run of C150 with the data step replaced by each class's proximal step; loss per pixel as separate specification (`pixel_loss`) | generic conjugate interface (dspec) with per-pixel variational inequality; same rate/existence proof as C151 |
| C166 | run of C165; `pd_steps_strict` = admissible for a larger relaxation | positive definite metric, Fejer monotonicity (PdhgSeq); existence of minimisers by shortest almost-minimisers (MinExist); saddle points by boxing |
| C167 | run of C165 with the KL proximal step; objective `kl_objective` over `kl_domain` | per-pixel variational inequality from the quadratic root; first-order condition; duals of the regularisers from an auxiliary l2 problem; lower semicontinuity of -b ln(1-z) |
| C168 | denoise_image as one PDHG problem (data term, start, limit, masks) and as the cross-validated choice of the weight; convergence from C166, strong convexity inequality, non-expansiveness, fixed point by the variational inequalities of both dual steps, range of the weight from C44 |
| C169 | add_noise with the drawn samples as arbitrary functions; exact result, exact failure condition, sign and mean of the background |
| C170 | create_sino with arbitrary linear projectors: consistency of sinogram and returned volume, angles, which arguments matter |
| C171 | create_sino_transmission followed by flat-field correction and logarithm (the models of C62/C63): exact round trip for every projector |
| C172 | compute_error_power: root mean squares, zero iff equal, triangle inequality by Cauchy-Schwarz |
| C173 | the four phase masks of a voxel value, fed to the attenuation and fluorescence models |
| C174 | the list of volumes with Python's truth values of the detector position |
| C175 | ceil and multiplication over the integers |
| C176 | axis length after rescaling and the scale factor computed from it |
| C177 | Python callables with signatures; dispatch on parallel_eval; completion order as a permutation; induction over it |
| C178 | executor open/closed state threaded through a list of calls; induction over the history |
| C179 | norms as finite sums over any number of pixels; Cauchy-Schwarz |
| C180 | as C177, followed by the loss over the list |
| C181 | dictionary update per round; induction over the masks; statement quantifies over any dictionary with the round's mask |
| C182 | finite sums; Popoviciu and Samuelson-type bounds |
| C183 | labelled transition system of main thread and workers; inductive invariant, decreasing measure |
| C184 | clock readings as reals; telescoping along each worker |
| C185-C188 | undecimated transform: filter bank as periodic correlation with dilation 2^level, per axis; padding, dictionary of labels, normalisation | convolution identities of the filters, composition of shifts, induction over axes and levels |
| C189 | names of modes, recursion of lengths | case analysis, induction over levels |
| C190 | decimated transform in periodization mode, packed coefficients | even/odd splitting, alias cancellation, induction over axes and levels |
| C191 | primal proximal step of the decimated-wavelet regulariser | orthogonality (C190) and the scalar proximal inequality; counterexample |
| C192 | SIRT with weighted least squares | proximal-gradient descent in the diagonal metric for smooth convex pixel costs (SmoothGrad.v); existence as in C158; geometric divergence example |
| C193 | SIRT with tolerance bands | same, pixel cost half the squared excess over the band; existence by the general attainment theorem of MinExist.v; two counterexamples for the documented band |
| C194 | SIRT with Kullback-Leibler | same, pixel cost the Moreau envelope of KL, continued by its tangent below epsilon; two-cycle counterexample |
| C195 | FISTA with weights and bands | accelerated estimate for smooth convex pixel costs; divergence example |
| C196 | strings, classes of data terms, construction as heap transformer (SolverObjModel.v) | computation on names; case analysis |
| C197-C198 | programs = sequences of events over a heap of data-term instances | invariant: locations owned by user and solvers are disjoint; frame lemmas by induction over programs |
| C199 | shapes of backgrounds, comparison and formatting errors | case analysis along a call in a reachable state |
| C200-C201 | argument normalisation; classes of regularisers by their primal step | induction over the sequence; case analysis |
| C202 | two threads, atomic steps, arbitrary schedules | simulation: each thread is on the track of its sequential call; counterexample with a shared object |
| C203 | SART with tolerance: the residual as computed (projections stacked on the last axis, broadcasting against the data) | loop bookkeeping by induction; equality for symmetric projections; counterexamples for other shapes |
| C204 | DetectorShiftsPRE.fit_v: profiles, scaling, derivative, padding, correlation, refinement, filter, mean | padded copies of a finite feature are cyclic shifts without a period, then C75; counterexample by explicit cosines |
| C205 | kinds (bool, unsigned, signed, float) of data, masks, starting volume and operator carried beside the values of SolversModel; in-place operations fail by numpy's same_kind rule | the typed run equals the untyped run or raises, by induction over the loop |
| C206 | fit_image_rotation_and_scale with skimage's warp_polar (order-1 spline, 360 rows) written out | order-1 interpolation around the centre is symmetric under half and quarter turns; the correlation peak by positivity of the spectrum; zero spectrum off the axis for stripes |
| C207 | mask collections (constructor, shape properties, get_mask, bin_masks) as shapes and n-d arrays | block sums of a zero-completed image against an image constant on blocks, axis by axis; refutations by explicit collections |
| C208 | FilterFBP: names, skimage's ramp taps and windows, use through Filter.__call__ | Basel-type bound on the taps gives a positive ramp; inverse transform as an even kernel; energy identity for the bounds; refutation by the Hamming/Hann window at one bright pixel |
| C209 | FitConeBeamGeometry: constructor (shapes, centring, rotation, both fits) followed by `fit` | composition of C137 (rotation), C78/C79 (fits) and C136 (formulas); refutation on five rational points of a tilted detector |
| C210 | models.py defaults: names decoded as lower-cased strings, apply_shift by computation, rotation by Rodrigues about z | case analysis on the decoded name; the broadcast lemmas of C48/C104; explicit rows; refutation for a single projection |
| C211 | scikit-image backend: radon's line and iradon's smearing as parameters; shapes, slices, squeeze, broadcasting, dtypes written out | unfolding with numpy's slice/squeeze/assignment rules; the factor pi/2 against 2/pi; swap of sums for the adjoint; truncation of small values for the integer refutations |
| C212 | with-blocks as programs (calls, nesting) over the native-handle model of C52 | a successful make_ready is independent of the failure pattern; calls on a ready backend keep its handles; induction over programs |
| C213 | ProjectorUncorrected: constructor checks, fall-back, PSF squeezing and kernel shapes | case analysis against an independent relation `backend_for`; kernels computed by unfolding; refutations by squeezing [k;1] and [1] |
| C214 | ASTRA `_check_data`, `_check_prj_shape`, fp/bp of both interfaces on (shape, row-major data) pairs; toolbox = parameter | characterise the accepted shapes by the negative indices kept; refutations by squeezed or permuted shapes |
| C215 | sampling options of make_ready, int() = truncation | floor bounds |
| C216 | DataFidelity_KL.compute_residual with and without use_proximal (DataTermsModel) | derivative of the Poisson cost; sign by comparing squares |
| C217 | rotate_proj_stack with skimage's rotate written out (inverse map about (n-1)/2, hat weights, zero outside); dtype of the stack | hat weights telescope to a difference of clamps, so they sum to at most one; special angles land on the grid |
| C218 | compute_attenuation (model of C55) with that rotation | the rotation satisfies the hypothesis of C55 |
| C219 | background_from_margin as a whole: margin forms, checks, shapes, storage type (MarginModel.v, on the formulas of ProcPreModel.v) | case analysis over the forms; polynomial part from C70_polynomial_recovered |
| C220 | get_propagation_filter: real-space filter (PhaseModel.v) and the use_rfft half spectrum with irfftn as mirrored inverse transform (PropFilterModel.v) | N-D inverse transform at an offset from the middle; characters; mirror symmetry of the frequencies |
| C221 | element look-ups, get_compound with the table and the parser apart, get_delta_beta and its curves (XraylibModel.v; tables are parameters) | case analysis; refinement of the model of C148; induction over the comprehensions |

## 3. Trusted base

* Coq 8.16.1 kernel (`coqc`). No plugins, no native_compute, no `-type-in-type`, no kernel
  check switched off. No axioms, parameters, functors, module types or admitted proofs of
  our own.
* The reading of the Python source: the model is tied to the code by the cited lines only.
* Axioms: only the standard library's. `Print Assumptions` (theories/Assumptions.v, one list
  per file; the list of a file is the union over its theorems) gives:

| axioms | files |
|--------|-------|
| none | BackendsProps |
| `ClassicalDedekindReals.sig_forall_dec`, `FunctionalExtensionality.functional_extensionality_dep` | MarginProps, XraylibProps, MuraProps, OperatorsMoreProps, OperatorsProps, ProjectorsProps, StructIllumProps |
| the two above and `ClassicalDedekindReals.sig_not_dec` | PropFilterProps, AstraInputProps, ProjCtorProps, AlignEllipseProps, AlignMarkerProps, AlignMiscProps, AlignShiftProps, AlignShiftsProps, AlignXcProps, ConeBeamProps, GeometryMoreProps, GeometryProps, GeometryVolProps, GhostScaleProps, NuclearProps, OperatorsLayoutProps, PdhgConvProps, ProcMiscProps, RegularizersProps, RegularizersWaveProps, SolversConvProps, SolversOptProps, SolversProps |
| the three above and `Classical_Prop.classic` | AlignFitProps, RotateProps, KlResidualProps, BackendsGeomProps, ConeBeamEtaProps, ConeBeamFitProps, DataTermsNdProps, DataTermsProps, FiltersBasisProps, FiltersProps, FourierOpProps, ParamTuningProps, PdhgExistProps, PhaseProps, PhysicsAttProps, PhysicsBeamProps, PhysicsProps, SkimageProps, ProcPostProps, ProcPreProps, SolversEMProps, TvProps and the files added later (see Assumptions.v) |

  `sig_forall_dec` and `sig_not_dec` are the axioms behind Coq's real numbers;
  functional extensionality identifies arrays (functions) that agree everywhere; excluded
  middle enters through the library's real analysis (ln, atan, sqrt continuity, compactness).
  `vcheck` also lists the axioms `Under_rel.*` that `Coq.ssr` declares; no theorem uses them.

## 4. What is modelled, what is not

Common to all areas: float32/float64 arithmetic is replaced by reals (no rounding, overflow,
NaN; where the code can produce 0/0 the model either carries the guard, returns `None`, or the
case is the subject of a refutation); dtype casts, logging, progress bars, plotting, timing and
warnings are not modelled.

### operators.py
Modelled: BaseTransform (matvec, rmatvec, transpose, adjoint, explicit, call), TransformIdentity,
-Diagonal, -Convolution (direct method, all padding modes), -Gradient, -Laplacian, wavelet padding and
packing, -Fourier, -SVD axis bookkeeping and rescaling.
Contracts: numpy FFT = exact DFT; `np.linalg.svd` = any factors with A = U s Vt (and orthonormal, s >= 0 for
C154–C157); `np.argsort` = any sorting permutation; `np.pad` index maps for constant, edge, wrap, reflect,
symmetric. TransformFourier: axes in increasing order for the mask reshape.
pywt (WaveletsModel.v, DwtModel.v): `swtn`/`iswtn` = filter banks of correlations with dilation 2^k, periodic
boundary, library's alignment and averaging of the two phases (contract); `wavedecn`/`waverecn` in periodization mode on sizes
that are multiples of 2^level (contract), packed by `coeffs_to_array` corner-wise; the mode names `pywt.Modes` accepts.
A bank is any pair of analysis and synthesis filters of even length; orthogonal banks are built from the
scaling filter as pywt does. C187_parseval discharges the isometry hypothesis of C98.
Not modelled: pywt's filter tables (Haar and db2 are written out), other decimated modes' values, FFT-based convolution, torch code.

### data_terms.py
Modelled: every class; DataFidelity_ln in NuclearModel.v (default branch; `use_fallback` is never set).
np.linalg.norm's dimension rules are explicit (C119). Not modelled: the ln residual norms.

### regularizers.py
Modelled: base class, gradient/TV/smooth, Laplacian, l1/l2, wavelets (sub-band lists and step sizes), medians,
Fourier, limits, TNV/VTV/vl1wl steps, masks and weights. Not modelled: the vSVD iteration (its operator
is not linear), non-scalar weights in C150–C153.

### solvers.py, denoisers.py
Modelled: SART, SIRT, PDHG, FISTA, MLEM, FBP; masks, bookkeeping, tolerance, power method, cross-validation norms. Operators are arbitrary
functions where possible and matrices where convergence is proved. Solver objects (SolverObjModel.v): construction, copies of data terms, repeated calls, threads; there the regularisers are values (their sharing is C19), SART and FBP calls are not modelled, and in threads only SIRT. SART with tolerance (SartTolModel.v): the stacked residual with numpy's broadcasting rules. SIRT and FISTA with weights, tolerance bands and Kullback-Leibler (SirtTermsProps.v, SmoothGrad.v): matrices, no update masks. PDHG convergence (C150–C153): L2 data
term; C165/C166: every separable data term; C167: Kullback-Leibler; diagonal preconditioner, relaxation at most 1, no update masks in the regularisers, `safe_sigma`/`safe_tau` (the 1e-6 guard does
not change the steps). Kinds of numbers (DtypesModel.v): only the kind, no sizes, overflow or rounding; without background; SART only its kinds and the truncation of one pixel. denoisers.py: denoise_image completely (DenoiseModel.v), with scipy's medfilt2d as a parameter and the default wavelet regulariser as a matrix.

### param_tuning.py
Modelled: grids, cross-validation splits, pools with arbitrary completion order, failures, keyword routing, quadratic/spline minimum.
Contracts: RNG permutations, executor completion order. Not modelled: plotting.

### models.py, _projector_backends.py, projectors.py
Modelled: volume and projection geometries, rotations (`Rotation.from_rotvec` = Rodrigues' formula), ASTRA vectors, the
backends as state machines over a table of native handles where every native call may fail, detector/angle collapsing, attenuation corrections,
forward/back projection by angle. Contracts: ASTRA's projection = a linear function of (geometry, volume);
skimage's rotate = hypothesis `interpolating`. The scikit-image backend is in SkimageModel.v (radon and iradon of one angle are parameters); construction, PSFs and the context manager of ProjectorUncorrected in ProjCtorModel.v; the shapes the ASTRA backends accept and return, and their sampling options, in AstraInputModel.v; skimage's rotate is written out in RotateModel.v. Not modelled: ASTRA's kernels, `emitted_sub_sampling=0`.

### filters.py
Modelled: all filter construction, data-driven bases, padding and normalisation. Contracts: `rfft` of real data as full transform; `lstsq` =
any minimiser; skimage's `_get_fourier_filter` arbitrary in C59–C62, and in C208 written out from skimage's source (FbpFilterModel).

### processing/
Modelled: misc (masks, normalised cross-correlation, ball), pre (rotate_proj_stack in RotateModel.v, background_from_margin with its argument forms and shapes in MarginModel.v, padding, shifting, destriping, eigen-flats), post (FRC, power spectrum,
noise propagation). Contracts: `fftconvolve` = exact correlation; scipy `shift`/`convolve` with mode "nearest"; `block_reduce` completes with zeros;
`np.linalg.qr`/`inv` by their equations. Not modelled: `estimate_resolution`'s plotting, scipy `zoom`.

### alignment/
Modelled: fitting, shift detection (fourier, SAD, centre of mass), centring, vertical pre-alignment (AlignPreModel.v; one detector element), rotation and scale by log-polar spectra (RotScaleModel.v; skimage's warp_polar from its definition, window a parameter), cone-beam calibration, marker tracking. Contracts: `Polynomial.fit` =
least squares; `fourier_shift` by an integer = circular shift; `np.arctan2` as a relation. Not modelled: `scipy.optimize`
refinements (l1 fits, sinusoid curve_fit), the marker self-convolution.

### struct_illum.py
Modelled: mask generators (MURA, pencil beam, half-Gaussian arguments), collections, `json` round trip as identity, ghost-imaging solvers, sampling correction.
Binned collections (integer binning) and mask lookup in MasksModel.v. Not modelled: floating binnings, QR of one-dimensional masks.

### physics/
Modelled: units, Siegbahn lines, materials, detectors, attenuation, pencil beams, phase filters (the half-spectrum option in PropFilterModel.v), element and compound look-ups (XraylibModel.v). xraylib's tables are option-valued function
arguments. Phase filters exclude zero denominators by `filter_ok`.

### param_tuning.py, classes
Modelled (TuningRunModel.v): BaseParameterTuning (constructor's normalisation of parallel_eval, setters, process_hp_vals, compute_reconstruction_error),
LCurve and CrossValidation.compute_loss_values, clock readings, and the interleaving of the main thread with the workers. User functions are arbitrary
(parameter list, result or exception). Not modelled: printing, the contents of plots (only the exception raised by the broken one), dtype
conversion, numpy's value for zero rounds, task functions that change their arguments.

### testing.py
Modelled (TestingModel.v): roundup_to_pow2, add_noise, create_sino, create_sino_transmission, compute_error_power, the phase masks and the list
of volumes of phantom_assign_concentration(_multi), the pixel size of create_phantom_nuclei3d. numpy's random draws are arbitrary functions; the
projectors are arbitrary (linear) functions here and modelled elsewhere. Not modelled: the segmentation steps of create_phantom_nuclei3d,
download_phantom.

## 5. Wrong programs

`tools/mutate.py` edits a scratch copy of the model, rebuilds and records which theorems fail
in `seeded/LOG.jsonl`; a mutant that no theorem rejects is followed by a stronger theorem
(field `theorems_tightened`).
