{
 "C02": {
  "note": "Round trip and guarded chaining proved; the docstring's 'any order' claim is refuted by C02_pad_crop_any_order_refuted.",
  "status": "proved"
 },
 "C07": {
  "note": "Exact accept/reject sets proved for every checker. The contract as documented fails: NaN passes the sign checks, ragged sequences raise ValueError, a bytes name turns the failure into TypeError, string arrays pass real_array (C07_documented_contract_refuted).",
  "status": "partial"
 },
 "C100": {
  "note": "Operations of the code in binary64, one by one; sine, cosine, arctan2 and the square of a Python float are arguments. Ellipses do not move exactly with their offset because the antialiasing window is measured at the array corner.",
  "status": "proved"
 },
 "C101": {
  "note": "Sizes and offsets up to 2^36 pixels (2^35 for pupils), rotations up to 1024 degrees; the C library is any that is accurate to about one ulp (libm_ref is one). simple_pupil: diameters of at least 2^-1000 pixels or zero.",
  "status": "proved"
 },
 "C102": {
  "note": "Doubles are Flocq binary64; numpy.sum is any routine adding two by two in some order. Images of integer type are not covered. The two blind spots of the balance are theorems (C102_quad_saturated_outside, C102_quad_nan_radius) and findings.",
  "status": "proved"
 },
 "C103": {
  "note": "Amplitude proved (C103_target_partial, C103_source_partial); the claim for the shift is refuted (C103_shift_refuted), its value is C103_shift. C103_clean ties the model to that of C45 and C46. That the FFT and the matrix products spread a nan to every output is part of the model.",
  "status": "partial"
 },
 "C104": {
  "note": "Spots and bowtie measurements over IEEE doubles: bad pixels, exact bounds, totality on photon counts, sign and monotonicity after rounding. The regions are those of the double-precision circle model; libm cos and sin and numpy.sum are quantified. C104_dim_light shows why counts are assumed: a region with less light than 2^-52 is treated as fainter than a dark one.",
  "status": "proved"
 },
 "C105": {
  "note": "Proved up to radial order 22 (the first 276 modes): coefficients exact, value within an explicit bound, below 1e-10 for the first 45 modes; plus the exact refusals. The general claim is refuted: at orders (50, 0) the rim value is off by more than 200 with correctly rounded library routines, and from radial order 171 on every pixel is nan or infinite. Orders 23 to 170 have no accuracy bound.",
  "status": "partial"
 },
 "C106": {
  "note": "The error bounds, the finiteness, the round trip at critical sampling and the exact refusals are proved. The claim that a border of zeros does not change the result is false of the code in doubles (C106_padding_exact_refuted).",
  "status": "partial"
 },
 "C107": {
  "note": "Accuracy, refusals and zero distance are proved in full. The sampling criterion is decided correctly only away from equality: 255 points, which are enough for 510 nm over 1.25 m at 20000 pixels per metre, are refused (the rounded product is 255.00000000000003), and 220 points are accepted for the double 5.5e-07 over 1 m although the exact product exceeds 220.",
  "status": "partial"
 },
 "C12": {
  "note": "Pixel values, linearity, concatenation, permutation and definedness proved in full. The automatic size contains the beam for zero offset only; with an offset the claim is refuted (C12_auto_size_offset_refuted).",
  "status": "partial"
 },
 "C21": {
  "note": "scipy's spline, rotate and shift are quantified operations with stated hypotheses; the sense of rotation and shift is scipy's and not modelled. Cubic-spline failure below 4 samples is modelled as an error.",
  "status": "proved"
 },
 "C22": {
  "note": "Exact for point-symmetric influence functions (C22_fit_inverts_partial). build_prefilter stores the response of actuator j as row j, so for a non-symmetric influence function the fit inverts the point-reflected kernel instead (C22_reflected_kernel) and the claim is refuted by C22_nonsymmetric_refuted.",
  "status": "partial"
 },
 "C27": {
  "note": "Exact outcome proved for every sampled quadratic: the unique stationary point, or QuadraticException when |b^2-4ac| or |2c| is below the threshold. The claim for every non-degenerate quadratic is refuted (C27_nondegenerate_refuted): z = x*y has c = 0 and raises.",
  "status": "partial"
 },
 "C28": {
  "note": "The pair is (column, row); the docstring's order is refuted by C28_documented_order_refuted.",
  "status": "proved"
 },
 "C29": {
  "note": "Exact value proved: pixels on the origin's row (column) count twice in the x (y) balance, so plain right-minus-left holds only when those are dark; refuted otherwise. The origin is checked against the wrong axis, so valid origins are rejected for non-square images (refuted). An image of zero sum gives nan for every origin inside it (C29_zero_sum).",
  "status": "partial"
 },
 "C30": {
  "note": "For 0/1 masks; other masks raise unless their sum happens to equal the number of non-zero pixels.",
  "status": "proved"
 },
 "C32": {
  "note": "Proved whenever the window the code measures between the two corner neighbours is wide enough for a pixel of this ellipse (and always for one subpixel). Refuted in general: the window is a finite difference taken at the array corner and can vanish, C32_ellipse_coverage_refuted.",
  "status": "partial"
 },
 "C34": {
  "note": "Proved for rotations below 360 degrees and at least two columns. Refuted otherwise: a rotation of 360 degrees or more ends in UnboundLocalError, one column in IndexError.",
  "status": "partial"
 },
 "C36": {
  "note": "Union, order independence and rejection of invalid files proved. The mask is boolean whenever at least one shape is listed; with an empty list it is a float array (C36_always_boolean_refuted).",
  "status": "partial"
 },
 "C38": {
  "note": "Uniqueness is exact. Presortedness is refuted as stated: allclose tolerates inversions, so [100.0005, 100] is accepted and yields a negative difference. Proved: every nondecreasing vector is accepted; an accepted vector has no inversion larger than twice the allclose tolerance; strictly ascending vectors give positive differences and interior means.",
  "status": "partial"
 },
 "C39": {
  "note": "Proved for square DMs with at least three ascending commands, including extrapolation. Refuted for non-square DMs: shape tests compare rows with columns, so every non-square command map fails with ValueError or IndexError.",
  "status": "partial"
 },
 "C40": {
  "note": "Square DMs, at least four commands, increasing heights; SciPy's cubic spline is any function through its points. With the not-a-knot spline and constant gains the command is flat + delta / gain limited to the calibrated commands. Refuted for decreasing heights (always ends at the last command) and for non-square DMs (always an error).",
  "status": "partial"
 },
 "C41": {
  "note": "Both estimators invert the response exactly for positive coefficients; antisymmetric, strictly increasing, zero exactly at 1. Coefficient signs are documented but not checked (C41_unchecked_coefficients); NaN passes bound_value.",
  "status": "proved"
 },
 "C42": {
  "note": "Estimate equals the clamped difference of measured and target offsets; bounded, sign and zero characterised; only valid files give a result.",
  "status": "proved"
 },
 "C43": {
  "note": "Reassignment and flatten as a whole; gains assumed non-zero (numpy would give NaN, the model's reals give 0).",
  "status": "proved"
 },
 "C44": {
  "note": "Modes, phases, balance and cost; the balance of flatten's own output assumes fminbound finds the minimum (exact_fmin, satisfied by fmin_ref). Finding: with the FCM, maxNoll below 4 (a valid positive integer) raises IndexError.",
  "status": "proved"
 },
 "C45": {
  "note": "Exact arithmetic; FFTs are the DFT sums. Fractional shifts need the whole-pixel peak near the true shift (stated in C45_subpixel).",
  "status": "proved"
 },
 "C46": {
  "note": "scipy.ndimage.shift is a parameter, assumed exact for whole-pixel shifts in C46_recovers (satisfied by scipy_ref).",
  "status": "proved"
 },
 "C47": {
  "note": "The grazing exception is part of the statement (C47_grazing). Index arrays are complex dtype.",
  "status": "proved"
 },
 "C48": {
  "note": "Any complex indices; zero film needs both results finite, which holds for passive stacks.",
  "status": "proved"
 },
 "C49": {
  "note": "binary64 rounding of the step sizes is covered; image sums are exact reals. C49_on_image_refuted: candidates outside the image are not skipped (tests joined by or).",
  "status": "proved"
 },
 "C50": {
  "note": "finite image values; numpy.percentile modelled as the linear method.",
  "status": "proved"
 },
 "C51": {
  "note": "Contracts assumed of unwrap_phase, remove_small_objects and NearestNDInterpolator (is_unwrapper, is_remove_small, is_nearest); binary_erosion is modelled.",
  "status": "proved"
 },
 "C52": {
  "note": "Proved: the search and the fact that the returned offset is relative to the guess; the documented reference (array centre) holds for a zero guess only. Refuted with a witness for other guesses: the guess is not added back.",
  "status": "partial"
 },
 "C53": {
  "note": "Spline and rotation are arguments; the spline is assumed to interpolate at knots and be constant outside (FITPACK), satisfied by a reference instance. Border exception shown by C53_edge_refuted.",
  "status": "proved"
 },
 "C54": {
  "note": "open() and yaml.safe_load() are arbitrary functions. Exceptions outside the three handled families (for instance the ValueError PyYAML raises for an impossible date) pass through unchanged, as the theorem states.",
  "status": "proved"
 },
 "C55": {
  "note": "Exact characterisation of the usable pixels and of the accepted inputs.",
  "status": "proved"
 },
 "C56": {
  "note": "Full search specification proved. Convergence holds for translation passes, single clocking passes and unshrunk searches; with a shrink factor below one the clocking passes overshoot (C56_overshoot, complete run in C56_converges_refuted).",
  "status": "partial"
 },
 "C57": {
  "note": "Proved in exact arithmetic (search, range, acceptance, refusals, matching trials, brightness invariance). The count and range of the trials fail in binary64: C57_float_trials_refuted shows 11 trials, the last out of range, for the shipped settings and guess 3.5; C57_float_trials_partial gives n or n + 1 trials in doubles, each within guess (n + 1) 2^-48 of the exact one. The upper end of the searched range is not itself on the fine grid. best_fit is an array, not a float as documented.",
  "status": "partial"
 },
 "C58": {
  "note": "The window clause holds for the grid step (C58_window_partial) but a quadratic fit may step outside the window (C58_window_refuted). lstsq, rotate and spline are oracles.",
  "status": "partial"
 },
 "C60": {
  "note": "Proved for every pixel whose distance from the centre times sin(dTheta) is at least 1/sqrt 2, and for every pixel clear of the annulus. Refuted close to the centre, C60_near_centre_refuted.",
  "status": "partial"
 },
 "C61": {
  "note": "Square DMs only (non-square maps always fail, C40_nonsquare_refuted). The round trip is proved for maps of calibration commands with any interpolating spline, and for every map in range when gains are constant; C61_between_refuted shows it is not exact between calibration commands of a curved actuator. Differences are exact for cubic responses.",
  "status": "partial"
 },
 "C62": {
  "note": "As C42 for both axes of the bowtie mask.",
  "status": "proved"
 },
 "C63": {
  "note": "DM part assumes the library routines map zero to zero, an exact linear solve, a non-singular prefilter and non-zero gains.",
  "status": "proved"
 },
 "C64": {
  "note": "The smoothing kernel is a parameter; bounds need it to be an averaging kernel.",
  "status": "proved"
 },
 "C65": {
  "note": "Round trip proved for no clocking and whole-pixel shifts, for a flipped DM only when dx = 0; refuted for a flipped DM with dx = 1 (actuators sampled at -X-dx instead of -X+dx). Sampling theorem assumes no clocking and actuators on pixel centres.",
  "status": "partial"
 },
 "C66": {
  "note": "Material tables transcribed from the shipped data files.",
  "status": "proved"
 },
 "C67": {
  "note": "",
  "status": "proved"
 },
 "C68": {
  "note": "Branch of the complex square root in solver.",
  "status": "proved"
 },
 "C69": {
  "note": "YAML and FITS contents are arguments; NaN results are the value None. Existence of finite coefficients is proved for the shipped tables, 0.2-4 micrometres, bare corner pixel.",
  "status": "proved"
 },
 "C70": {
  "note": "Whole function over exact reals; lstsq as an oracle.",
  "status": "proved"
 },
 "C71": {
  "note": "Holds for translation. The clocking cost compares surface with wavefront (no factor two, no flattening), so a wrong clocking can win (C71_clocking_refuted).",
  "status": "partial"
 },
 "C72": {
  "note": "Search and exactness proved. The cost is the right one on square images without flip; rows and columns are exchanged otherwise (C72_misfit_refuted).",
  "status": "partial"
 },
 "C73": {
  "note": "Proved for square images at one pixel per lambda/D. Refuted in general: C73_self_refuted.",
  "status": "partial"
 },
 "C74": {
  "note": "Exact real arithmetic; angles in degrees through the real pi. The loop invariant covers every rotation (four quadrants, including the degenerate axis-parallel ones) and rectangles clipped by the array.",
  "status": "proved"
 },
 "C75": {
  "note": "cv2.findContours and cv2.fitEllipse are arguments; translation assumes they follow translations (satisfied by a bounding-box reference). Dilation and erosion are modelled. C75_small_padding_loses_pupil: without the padding the docstring asks for, pupil pixels near the edge are eroded away.",
  "status": "proved"
 },
 "C76": {
  "note": "canny and the Hough transform are arguments.",
  "status": "proved"
 },
 "C77": {
  "note": "cv2 contours and ellipse, lstsq, scipy rotation and spline are arguments with hypotheses. fit_ellipse, the downsampler, the offset and clocking searches are the models of C75, C35 and the pupil/util properties. The offsets use the reference turned and flipped as asked; the clocking search uses it as stored (C77_clocking_ignores_orientation). YAML and FITS reading are the arguments.",
  "status": "proved"
 },
 "C78": {
  "note": "Real amplitude maps; complex maps only through their modulus. lstsq, rotation and spline are arguments.",
  "status": "proved"
 },
 "C79": {
  "note": "Proved for square maps; side 1000000 is gen_zernikes' sentinel for an automatic size and is left out. C79_any_map_refuted: on a map that is not square the function never returns, because the fitted modes are generated on a square array. The pupil fit is any function, so all its results are covered.",
  "status": "partial"
 },
 "C80": {
  "note": "Recovery (C80_recovers) is for whole trial steps, with unit gain or a single pass, and allows for the exception the quadratic fit may raise, as the property says; convergence for other offsets is neither claimed nor proved.",
  "status": "proved"
 },
 "C81": {
  "note": "The spline shift of scipy is a quantified function; for whole-pixel offsets it is assumed to be the zero-filled shift (its documented behaviour).",
  "status": "proved"
 },
 "C82": {
  "note": "The code compares phPoked1 with the first set's shape (maskfit.py:348), stated as it is by C82_sizes and C82_rejects.",
  "status": "proved"
 },
 "C83": {
  "note": "The docstring's narrowing of the search each loop iteration is not done by the code (half-width is magShrinkFac*deltaMag in every iteration); C83_value states what is done. C83_flat: equal counts give magnification 1 whatever the trials are.",
  "status": "proved"
 },
 "C84": {
  "note": "All modes and all radii: orthonormality, rms, projection, mean, uniqueness of coefficients; integrals are Riemann integrals in polar coordinates of the exact-real values xyzern returns.",
  "status": "proved"
 },
 "C85": {
  "note": "The modes are polynomials of degree at most d in each coordinate, so a combination vanishing on the grid vanishes on the pupil disc, where C84 applies. C85_pupil_fit is for square maps (other maps are refused, C79_any_map_refuted).",
  "status": "proved"
 },
 "C86": {
  "note": "SciPy's interp1d(kind='cubic') is any function that evaluates the not-a-knot cubic spline; such a function is constructed (scipy_ref) and the spline shown unique. Non-square DMs are refused with an error (C40_nonsquare_refuted).",
  "status": "proved"
 },
 "C87": {
  "note": "RectBivariateSpline is specified as the not-a-knot bicubic spline (FITPACK's knots for s=0), clamped to its grid; existence and uniqueness are proved. The same spline is shown to meet every weaker requirement made of SciPy's splines in the other properties (examples).",
  "status": "proved"
 },
 "C88": {
  "note": "The docstring's other reading of height, as a bound on the peak, is refuted (C88_peak_height_refuted).",
  "status": "proved"
 },
 "C89": {
  "note": "Exact arithmetic; scipy's linear interp1d is modelled (sort, searchsorted, clipping; nan from a single point, IndexError from none).",
  "status": "proved"
 },
 "C90": {
  "note": "Equality of the two calls, including exceptions. C90_unit_refuted is the resulting failure of unit magnification to reproduce a mask with phase.",
  "status": "proved"
 },
 "C91": {
  "note": "The first unmet requirement decides the exception, and for focal-mask offsets and dark holes an input is accepted exactly when all are met. The star searches may further raise QuadraticException on the data. For the mirror registration the requirements on maps, scalars, fitting file and the path to the registration entry are covered; failures in the calibration data behind it are not.",
  "status": "proved"
 },
 "C92": {
  "note": "End-to-end composition of C43, C44, C63-C65. Exact reals; the spline interpolates on its grid (grid_spline), spsolve solves nonsingular systems, rotation by 0 is the identity. Off-grid actuators, clocking and DMs both mirrored and shifted sideways (finding C65) are outside the hypotheses.",
  "status": "proved"
 },
 "C93": {
  "note": "Proved in binary64 for ordinary sampling values unless start/end*size is an integer up to one part in 2^52 (C93_accepts_partial, C93_outcomes). Refuted in the remaining case: FN=28, lam0=lam=575e-9, dx=1e-6, ppl=5, rOccLamD=20, minOversize=8 gives mag = 1+2^-52 and a TypeError (C93_refuted). In exact arithmetic there is no exception (C69_magnification).",
  "status": "partial"
 },
 "C94": {
  "note": "Operation-by-operation binary64 model of circle(); bit equality of pixels, no overflow for values up to 2^400.",
  "status": "proved"
 },
 "C95": {
  "note": "Forward error analysis of the binary64 model against the exact coverage of C31; exact rounding of the coverage away from the rim.",
  "status": "proved"
 },
 "C96": {
  "note": "Lengths on a grid of 2^-t pixels give the exact mask (the same specification as the real-number model of C37); any other finite doubles give it up to a rim of 2^(k-47) pixels, and C96_tie shows that the tolerance cannot be dropped. Annular sectors and bowties are not covered: they use numpy's arctan2, exp and angle, whose rounding is not specified. C96_nan_radius records that a NaN radius is accepted and gives an empty mask.",
  "status": "proved"
 },
 "C97": {
  "note": "Ordering, ends, accuracy and the presence of the current estimate are proved for all moderate doubles. Exact symmetry and the presence of zero in a range of odd length are proved for steps that are short binary fractions and for 2^m+1 values; elsewhere they are false (C97_symmetric_refuted: five steps of 0.1; C97_zero_tried_refuted: 23 values in [-0.1, 0.1]).",
  "status": "partial"
 },
 "C98": {
  "note": "Proved for booleans, floats and integers up to 2^53. An integer fill beyond 2^53 goes through a double (extrapval * np.ones) and may differ by up to 512 below 2^62 (C98_fill_near), so 'the padding is extrapval' is refuted for 64-bit integers (C98_fill_refuted). Values that do not fit the integer type are left to the machine.",
  "status": "partial"
 },
 "C99": {
  "note": "32-bit and unsigned element types are not modelled; numpy's warning about a dropped imaginary part is not.",
  "status": "proved"
 }
}