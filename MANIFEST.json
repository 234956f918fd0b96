{
 "claims": [
  {
   "property": "C01",
   "status": "proved",
   "theorems": [
    "C01_pad_crop_pointwise",
    "C01_pad_crop_errors"
   ],
   "note": ""
  },
  {
   "property": "C02",
   "status": "proved",
   "theorems": [
    "C02_pad_crop_same_size",
    "C02_pad_crop_roundtrip",
    "C02_pad_crop_chain",
    "C02_pad_crop_any_order_refuted"
   ],
   "note": "Round trip and guarded chaining proved; the docstring's 'any order' claim is refuted by C02_pad_crop_any_order_refuted."
  },
  {
   "property": "C03",
   "status": "proved",
   "theorems": [
    "C03_offcenter_crop_pointwise"
   ],
   "note": ""
  },
  {
   "property": "C04",
   "status": "proved",
   "theorems": [
    "C04_crop_pointwise",
    "C04_crop_rejects",
    "C04_crop_crop"
   ],
   "note": ""
  },
  {
   "property": "C05",
   "status": "proved",
   "theorems": [
    "C05_combine_pointwise",
    "C05_combine_rejects",
    "C05_combine_union"
   ],
   "note": ""
  },
  {
   "property": "C06",
   "status": "proved",
   "theorems": [
    "C06_get_crop_lower",
    "C06_get_crop_lower_rejects",
    "C06_crop_centred"
   ],
   "note": ""
  },
  {
   "property": "C07",
   "status": "partial",
   "theorems": [
    "C07_real_positive_scalar",
    "C07_real_nonnegative_scalar",
    "C07_real_scalar",
    "C07_positive_scalar_integer",
    "C07_nonnegative_scalar_integer",
    "C07_scalar_integer",
    "C07_string",
    "C07_boolean",
    "C07_dictionary",
    "C07_rank_arrays",
    "C07_twoD_square_array",
    "C07_real_array",
    "C07_bad_name_or_class",
    "C07_documented_contract_refuted"
   ],
   "note": "Exact accept/reject sets proved for every checker. The contract as documented fails: NaN passes the sign checks, ragged sequences raise ValueError, a bytes name turns the failure into TypeError, string arrays pass real_array (C07_documented_contract_refuted)."
  },
  {
   "property": "C08",
   "status": "proved",
   "theorems": [
    "C08_ceil_even",
    "C08_ceil_odd",
    "C08_ceil_monotone",
    "C08_ceil_fixpoints",
    "C08_ceil_even_binary64",
    "C08_ceil_odd_binary64",
    "C08_ceil_nonfinite",
    "C08_ceil_even_all_doubles_refuted"
   ],
   "note": ""
  },
  {
   "property": "C09",
   "status": "proved",
   "theorems": [
    "C09_rms",
    "C09_rms_homogeneous",
    "C09_cart2pol_scalar",
    "C09_cart2pol_array",
    "C09_polar_unique",
    "C09_cart2pol_errors"
   ],
   "note": ""
  },
  {
   "property": "C10",
   "status": "proved",
   "theorems": [
    "C10_noll_decode",
    "C10_noll_bijection",
    "C10_noll_range",
    "C10_noll_binary64"
   ],
   "note": ""
  },
  {
   "property": "C11",
   "status": "proved",
   "theorems": [
    "C11_xyzern",
    "C11_xyzern_errors",
    "C11_coefficients",
    "C11_radial_edge"
   ],
   "note": ""
  },
  {
   "property": "C12",
   "status": "partial",
   "theorems": [
    "C12_gen_zernikes",
    "C12_defined_iff",
    "C12_linear",
    "C12_concatenation",
    "C12_permutation",
    "C12_auto_size_centred",
    "C12_auto_size_offset_refuted"
   ],
   "note": "Pixel values, linearity, concatenation, permutation and definedness proved in full. The automatic size contains the beam for zero offset only; with an offset the claim is refuted (C12_auto_size_offset_refuted)."
  },
  {
   "property": "C13",
   "status": "proved",
   "theorems": [
    "C13_fit_recovers",
    "C13_fit_optimal",
    "C13_fit_errors"
   ],
   "note": ""
  },
  {
   "property": "C14",
   "status": "proved",
   "theorems": [
    "C14_do_fft_is_centred_spectrum",
    "C14_ifft_of_fft",
    "C14_fft_of_ifft",
    "C14_defined",
    "C14_centre_pixel_is_sum",
    "C14_parseval"
   ],
   "note": ""
  },
  {
   "property": "C15",
   "status": "proved",
   "theorems": [
    "C15_zero_distance",
    "C15_transfer_function",
    "C15_compose",
    "C15_inverse",
    "C15_defined",
    "C15_errors"
   ],
   "note": ""
  },
  {
   "property": "C16",
   "status": "proved",
   "theorems": [
    "C16_energy_never_grows",
    "C16_energy_conserved_on_grid",
    "C16_energy_conserved_square"
   ],
   "note": ""
  },
  {
   "property": "C17",
   "status": "proved",
   "theorems": [
    "C17_two_step",
    "C17_agree",
    "C17_linear"
   ],
   "note": ""
  },
  {
   "property": "C18",
   "status": "proved",
   "theorems": [
    "C18_mft_value",
    "C18_offcenter_is_embedding",
    "C18_offcenter_misfit_refused",
    "C18_shift_is_phase",
    "C18_linear",
    "C18_errors"
   ],
   "note": ""
  },
  {
   "property": "C19",
   "status": "proved",
   "theorems": [
    "C19_imft_inverts_mft",
    "C19_imft_value"
   ],
   "note": ""
  },
  {
   "property": "C20",
   "status": "proved",
   "theorems": [
    "C20_heights_recovered",
    "C20_volts_recovered",
    "C20_units",
    "C20_defined"
   ],
   "note": ""
  },
  {
   "property": "C21",
   "status": "proved",
   "theorems": [
    "C21_poke_array",
    "C21_design_grid",
    "C21_camera_sampling",
    "C21_linear",
    "C21_zero_heights",
    "C21_shape",
    "C21_defined",
    "C21_errors",
    "C21_accepts_only"
   ],
   "note": "scipy's spline, rotate and shift are quantified operations with stated hypotheses; the sense of rotation and shift is scipy's and not modelled. Cubic-spline failure below 4 samples is modelled as an error."
  },
  {
   "property": "C22",
   "status": "partial",
   "theorems": [
    "C22_reflected_kernel",
    "C22_fit_inverts_partial",
    "C22_resampled_kernel",
    "C22_nonsymmetric_refuted",
    "C22_size_check"
   ],
   "note": "Exact for point-symmetric influence functions (C22_fit_inverts_partial). build_prefilter stores the response of actuator j as row j, so for a non-symmetric influence function the fit inverts the point-reflected kernel instead (C22_reflected_kernel) and the claim is refuted by C22_nonsymmetric_refuted."
  },
  {
   "property": "C23",
   "status": "proved",
   "theorems": [
    "C23_grid",
    "C23_partition",
    "C23_errors"
   ],
   "note": ""
  },
  {
   "property": "C24",
   "status": "proved",
   "theorems": [
    "C24_sine_bound",
    "C24_sine_flip",
    "C24_sine_period",
    "C24_sine_centre",
    "C24_probe_bound",
    "C24_probe_bound_reached",
    "C24_probe_flip",
    "C24_probe_translate",
    "C24_probe_quarter_turn",
    "C24_sine_value",
    "C24_sine_rejects",
    "C24_probe_defined",
    "C24_probe_rejects"
   ],
   "note": ""
  },
  {
   "property": "C25",
   "status": "proved",
   "theorems": [
    "C25_threshold_at_first_valley",
    "C25_separates",
    "C25_affine_invariant",
    "C25_raises"
   ],
   "note": ""
  },
  {
   "property": "C26",
   "status": "proved",
   "theorems": [
    "C26_exact_parabola",
    "C26_least_squares_vertex",
    "C26_shift",
    "C26_length_mismatch",
    "C26_nothing"
   ],
   "note": ""
  },
  {
   "property": "C27",
   "status": "partial",
   "theorems": [
    "C27_exact_quadratic_partial",
    "C27_least_squares_partial",
    "C27_best_surface_exists",
    "C27_stationary",
    "C27_shape_mismatch",
    "C27_nondegenerate_refuted"
   ],
   "note": "Exact outcome proved for every sampled quadratic: the unique stationary point, or QuadraticException when |b^2-4ac| or |2c| is below the threshold. The claim for every non-degenerate quadratic is refuted (C27_nondegenerate_refuted): z = x*y has c = 0 and raises."
  },
  {
   "property": "C28",
   "status": "proved",
   "theorems": [
    "C28_centroid",
    "C28_inside",
    "C28_scale",
    "C28_point_source",
    "C28_translate",
    "C28_degenerate",
    "C28_documented_order_refuted"
   ],
   "note": "The pair is (column, row); the docstring's order is refuted by C28_documented_order_refuted."
  },
  {
   "property": "C29",
   "status": "partial",
   "theorems": [
    "C29_balance_partial",
    "C29_balance_dark_axes_partial",
    "C29_mirror",
    "C29_accepts_partial",
    "C29_inside_origin_refuted",
    "C29_plain_balance_refuted",
    "C29_finite",
    "C29_zero_sum"
   ],
   "note": "Exact value proved: pixels on the origin's row (column) count twice in the x (y) balance, so plain right-minus-left holds only when those are dark; refuted otherwise. The origin is checked against the wrong axis, so valid origins are rejected for non-square images (refuted). An image of zero sum gives nan for every origin inside it (C29_zero_sum)."
  },
  {
   "property": "C30",
   "status": "proved",
   "theorems": [
    "C30_projection",
    "C30_plane_to_zero",
    "C30_plane_invariant",
    "C30_idempotent",
    "C30_least_residual",
    "C30_shape_mismatch"
   ],
   "note": "For 0/1 masks; other masks raise unless their sum happens to equal the number of non-zero pixels."
  },
  {
   "property": "C31",
   "status": "proved",
   "theorems": [
    "C31_circle_coverage",
    "C31_coverage_determined",
    "C31_dark_complement",
    "C31_radius_monotone",
    "C31_bad_arguments"
   ],
   "note": ""
  },
  {
   "property": "C32",
   "status": "partial",
   "theorems": [
    "C32_ellipse_coverage_partial",
    "C32_ellipse_range",
    "C32_single_subpixel",
    "C32_ellipse_coverage_refuted",
    "C32_bad_arguments"
   ],
   "note": "Proved whenever the window the code measures between the two corner neighbours is wide enough for a pixel of this ellipse (and always for one subpixel). Refuted in general: the window is a finite difference taken at the array corner and can vanish, C32_ellipse_coverage_refuted."
  },
  {
   "property": "C33",
   "status": "proved",
   "theorems": [
    "C33_rectangle_coverage",
    "C33_rectangle_errors",
    "C33_bad_arguments"
   ],
   "note": ""
  },
  {
   "property": "C34",
   "status": "partial",
   "theorems": [
    "C34_transmission_partial",
    "C34_rotation_360_refuted",
    "C34_bad_arguments"
   ],
   "note": "Proved for rotations below 360 degrees and at least two columns. Refuted otherwise: a rotation of 360 degrees or more ends in UnboundLocalError, one column in IndexError."
  },
  {
   "property": "C35",
   "status": "proved",
   "theorems": [
    "C35_pupil_value",
    "C35_pupil_range",
    "C35_strut_order",
    "C35_more_struts",
    "C35_bad_arguments",
    "C35_one_column"
   ],
   "note": ""
  },
  {
   "property": "C36",
   "status": "partial",
   "theorems": [
    "C36_union_partial",
    "C36_only_valid_files",
    "C36_order_irrelevant",
    "C36_invalid_shape_name",
    "C36_from_file",
    "C36_always_boolean_refuted"
   ],
   "note": "Union, order independence and rejection of invalid files proved. The mask is boolean whenever at least one shape is listed; with an empty list it is a float array (C36_always_boolean_refuted)."
  },
  {
   "property": "C37",
   "status": "proved",
   "theorems": [
    "C37_rectangle",
    "C37_annulus",
    "C37_sector",
    "C37_bowtie",
    "C37_bowtie_point_symmetric",
    "C37_full_opening_is_annulus",
    "C37_radii_in_wrong_order"
   ],
   "note": ""
  },
  {
   "property": "C38",
   "status": "partial",
   "theorems": [
    "C38_unique_values",
    "C38_sorted_accepted",
    "C38_accepted_nearly_sorted_partial",
    "C38_ascending_differences",
    "C38_presorted_refuted",
    "C38_positive_differences_refuted"
   ],
   "note": "Uniqueness is exact. Presortedness is refuted as stated: allclose tolerates inversions, so [100.0005, 100] is accepted and yields a negative difference. Proved: every nondecreasing vector is accepted; an accepted vector has no inversion larger than twice the allclose tolerance; strictly ascending vectors give positive differences and interior means."
  },
  {
   "property": "C39",
   "status": "partial",
   "theorems": [
    "C39_quadratic_square_partial",
    "C39_nonsquare_refuted"
   ],
   "note": "Proved for square DMs with at least three ascending commands, including extrapolation. Refuted for non-square DMs: shape tests compare rows with columns, so every non-square command map fails with ValueError or IndexError."
  },
  {
   "property": "C40",
   "status": "partial",
   "theorems": [
    "C40_clamped_partial",
    "C40_saturates_partial",
    "C40_calibration_points_partial",
    "C40_decreasing_refuted",
    "C40_nonsquare_refuted",
    "C40_constant_gain_partial"
   ],
   "note": "Square DMs, at least four commands, increasing heights; SciPy's cubic spline is any function through its points. With the not-a-knot spline and constant gains the command is flat + delta / gain limited to the calibrated commands. Refuted for decreasing heights (always ends at the last command) and for non-square DMs (always an error)."
  },
  {
   "property": "C41",
   "status": "proved",
   "theorems": [
    "C41_bound_value",
    "C41_quadratic_inverts",
    "C41_linear_inverts",
    "C41_quadratic_antisymmetric",
    "C41_linear_antisymmetric",
    "C41_quadratic_increasing",
    "C41_linear_increasing",
    "C41_zero_at_one",
    "C41_bad_ratio",
    "C41_unchecked_coefficients"
   ],
   "note": "Both estimators invert the response exactly for positive coefficients; antisymmetric, strictly increasing, zero exactly at 1. Coefficient signs are documented but not checked (C41_unchecked_coefficients); NaN passes bound_value."
  },
  {
   "property": "C42",
   "status": "proved",
   "theorems": [
    "C42_estimate",
    "C42_bounded",
    "C42_sign",
    "C42_reversed_axis",
    "C42_only_valid_files"
   ],
   "note": "Estimate equals the clamped difference of measured and target offsets; bounded, sign and zero characterised; only valid files give a result."
  },
  {
   "property": "C43",
   "status": "proved",
   "theorems": [
    "C43_reassign",
    "C43_reassign_defined",
    "C43_reassign_refused",
    "C43_flatten_sizes",
    "C43_new_command",
    "C43_flatten_dead"
   ],
   "note": "Reassignment and flatten as a whole; gains assumed non-zero (numpy would give NaN, the model's reals give 0)."
  },
  {
   "property": "C44",
   "status": "proved",
   "theorems": [
    "C44_split",
    "C44_split_defined",
    "C44_split_small_maxNoll",
    "C44_flatten_modes",
    "C44_flatten_phases",
    "C44_balanced_fraction",
    "C44_cost",
    "C44_cost_errors",
    "C44_flatten_balanced",
    "C44_orthogonal"
   ],
   "note": "Modes, phases, balance and cost; the balance of flatten's own output assumes fminbound finds the minimum (exact_fmin, satisfied by fmin_ref). Finding: with the FCM, maxNoll below 4 (a valid positive integer) raises IndexError."
  },
  {
   "property": "C45",
   "status": "proved",
   "theorems": [
    "C45_peak",
    "C45_interpolation",
    "C45_circular",
    "C45_exact",
    "C45_subpixel",
    "C45_defined",
    "C45_config"
   ],
   "note": "Exact arithmetic; FFTs are the DFT sums. Fractional shifts need the whole-pixel peak near the true shift (stated in C45_subpixel)."
  },
  {
   "property": "C46",
   "status": "proved",
   "theorems": [
    "C46_optimal",
    "C46_undefined",
    "C46_proportional",
    "C46_recovers",
    "C46_of_psffit"
   ],
   "note": "scipy.ndimage.shift is a parameter, assumed exact for whole-pixel shifts in C46_recovers (satisfied by scipy_ref)."
  },
  {
   "property": "C47",
   "status": "proved",
   "theorems": [
    "C47_energy",
    "C47_total_reflection",
    "C47_grazing",
    "C47_domain"
   ],
   "note": "The grazing exception is part of the statement (C47_grazing). Index arrays are complex dtype."
  },
  {
   "property": "C48",
   "status": "proved",
   "theorems": [
    "C48_zero_film",
    "C48_zero_film_passive",
    "C48_split"
   ],
   "note": "Any complex indices; zero film needs both results finite, which holds for passive stacks."
  },
  {
   "property": "C49",
   "status": "proved",
   "theorems": [
    "C49_terminates",
    "C49_unique",
    "C49_pass",
    "C49_disc",
    "C49_disc_pass",
    "C49_pass_rejects",
    "C49_rejects",
    "C49_one_pixel",
    "C49_on_image_refuted"
   ],
   "note": "binary64 rounding of the step sizes is covered; image sums are exact reals. C49_on_image_refuted: candidates outside the image are not skipped (tests joined by or)."
  },
  {
   "property": "C50",
   "status": "proved",
   "theorems": [
    "C50_value",
    "C50_rejects",
    "C50_bounds",
    "C50_ends",
    "C50_monotone",
    "C50_scales"
   ],
   "note": "finite image values; numpy.percentile modelled as the linear method."
  },
  {
   "property": "C51",
   "status": "proved",
   "theorems": [
    "C51_values",
    "C51_recovers",
    "C51_accepts",
    "C51_rejects",
    "C51_segments_values",
    "C51_segments_recovers",
    "C51_segments_rejects",
    "C51_erosion_default",
    "C51_erosion_subset",
    "C51_any_mask",
    "C51_number_mask_unusable"
   ],
   "note": "Contracts assumed of unwrap_phase, remove_small_objects and NearestNDInterpolator (is_unwrapper, is_remove_small, is_nearest); binary_erosion is modelled."
  },
  {
   "property": "C52",
   "status": "partial",
   "theorems": [
    "C52_relative_to_guess",
    "C52_zero_guess_partial",
    "C52_exact",
    "C52_at_centre",
    "C52_only_valid_files",
    "C52_documented_refuted"
   ],
   "note": "Proved: the search and the fact that the returned offset is relative to the guess; the documented reference (array centre) holds for a zero guess only. Refuted with a witness for other guesses: the guess is not added back."
  },
  {
   "property": "C53",
   "status": "proved",
   "theorems": [
    "C53_rejects",
    "C53_small",
    "C53_value",
    "C53_whole",
    "C53_average",
    "C53_average_inside",
    "C53_unit",
    "C53_edge_refuted"
   ],
   "note": "Spline and rotation are arguments; the spline is assumed to interpolate at knots and be constant outside (FITPACK), satisfied by a reference instance. Border exception shown by C53_edge_refuted."
  },
  {
   "property": "C54",
   "status": "proved",
   "theorems": [
    "C54_failures_use_custom_exception",
    "C54_value_only_from_file"
   ],
   "note": "open() and yaml.safe_load() are arbitrary functions. Exceptions outside the three handled families (for instance the ValueError PyYAML raises for an impossible date) pass through unchanged, as the theorem states."
  },
  {
   "property": "C55",
   "status": "proved",
   "theorems": [
    "C55_usable",
    "C55_accepts",
    "C55_rejects"
   ],
   "note": "Exact characterisation of the usable pixels and of the accepted inputs."
  },
  {
   "property": "C56",
   "status": "partial",
   "theorems": [
    "C56_search",
    "C56_pass",
    "C56_overshoot",
    "C56_single_pass_partial",
    "C56_unshrunk_partial",
    "C56_converges_refuted",
    "C56_translation"
   ],
   "note": "Full search specification proved. Convergence holds for translation passes, single clocking passes and unshrunk searches; with a shrink factor below one the clocking passes overshoot (C56_overshoot, complete run in C56_converges_refuted)."
  },
  {
   "property": "C57",
   "status": "partial",
   "theorems": [
    "C57_search",
    "C57_range",
    "C57_residual_unique",
    "C57_accepts",
    "C57_refuses_guess",
    "C57_refuses_shapes",
    "C57_refuses_missing",
    "C57_refuses",
    "C57_refuses_scalar_file",
    "C57_matching_trial",
    "C57_brightness",
    "C57_float_trials_refuted",
    "C57_float_trials_partial",
    "C57_float_trials_ascend"
   ],
   "note": "Proved in exact arithmetic (search, range, acceptance, refusals, matching trials, brightness invariance). The count and range of the trials fail in binary64: C57_float_trials_refuted shows 11 trials, the last out of range, for the shipped settings and guess 3.5; C57_float_trials_partial gives n or n + 1 trials in doubles, each within guess (n + 1) 2^-48 of the exact one. The upper end of the searched range is not itself on the fine grid. best_fit is an array, not a float as documented."
  },
  {
   "property": "C58",
   "status": "partial",
   "theorems": [
    "C58_clocking",
    "C58_angles",
    "C58_estimate_unique",
    "C58_symmetric",
    "C58_cone",
    "C58_clocking_rejects",
    "C58_lateral",
    "C58_trials",
    "C58_window_partial",
    "C58_window_refuted",
    "C58_recovers",
    "C58_lateral_rejects"
   ],
   "note": "The window clause holds for the grid step (C58_window_partial) but a quadratic fit may step outside the window (C58_window_refuted). lstsq, rotate and spline are oracles."
  },
  {
   "property": "C59",
   "status": "proved",
   "theorems": [
    "C59_dm_zernike"
   ],
   "note": ""
  },
  {
   "property": "C60",
   "status": "partial",
   "theorems": [
    "C60_segments_coverage_partial",
    "C60_near_centre_refuted"
   ],
   "note": "Proved for every pixel whose distance from the centre times sin(dTheta) is at least 1/sqrt 2, and for every pixel clear of the annulus. Refuted close to the centre, C60_near_centre_refuted."
  },
  {
   "property": "C61",
   "status": "partial",
   "theorems": [
    "C61_delta_heights_partial",
    "C61_transfer_partial",
    "C61_cubic_response_partial",
    "C61_constant_gain_partial",
    "C61_between_refuted"
   ],
   "note": "Square DMs only (non-square maps always fail, C40_nonsquare_refuted). The round trip is proved for maps of calibration commands with any interpolating spline, and for every map in range when gains are constant; C61_between_refuted shows it is not exact between calibration commands of a curved actuator. Differences are exact for cubic responses."
  },
  {
   "property": "C62",
   "status": "proved",
   "theorems": [
    "C62_bowtie_estimate",
    "C62_bowtie_sign",
    "C62_only_valid_files"
   ],
   "note": "As C42 for both axes of the bowtie mask."
  },
  {
   "property": "C63",
   "status": "proved",
   "theorems": [
    "C63_no_dms",
    "C63_fcm",
    "C63_fcm_zero_factor"
   ],
   "note": "DM part assumes the library routines map zero to zero, an exact linear solve, a non-singular prefilter and non-zero gains."
  },
  {
   "property": "C64",
   "status": "proved",
   "theorems": [
    "C64_surface",
    "C64_passes",
    "C64_flatten_surfaces",
    "C64_smooth"
   ],
   "note": "The smoothing kernel is a parameter; bounds need it to be an averaging kernel."
  },
  {
   "property": "C65",
   "status": "partial",
   "theorems": [
    "C65_sample",
    "C65_zero",
    "C65_round_trip_partial",
    "C65_flip_shift_refuted"
   ],
   "note": "Round trip proved for no clocking and whole-pixel shifts, for a flipped DM only when dx = 0; refuted for a flipped DM with dx = 1 (actuators sampled at -X-dx instead of -X+dx). Sampling theorem assumes no clocking and actuators on pixel centres."
  },
  {
   "property": "C66",
   "status": "proved",
   "theorems": [
    "C66_passive",
    "C66_occulter",
    "C66_rejects",
    "C66_convention",
    "C66_pmgi"
   ],
   "note": "Material tables transcribed from the shipped data files."
  },
  {
   "property": "C67",
   "status": "proved",
   "theorems": [
    "C67_airy",
    "C67_fresnel",
    "C67_pixelwise",
    "C67_occulter",
    "C67_mean"
   ],
   "note": ""
  },
  {
   "property": "C68",
   "status": "proved",
   "theorems": [
    "C68_phase_jump"
   ],
   "note": "Branch of the complex square root in solver."
  },
  {
   "property": "C69",
   "status": "proved",
   "theorems": [
    "C69_rejects",
    "C69_start",
    "C69_start_exists",
    "C69_value",
    "C69_magnification",
    "C69_blank",
    "C69_radius"
   ],
   "note": "YAML and FITS contents are arguments; NaN results are the value None. Existence of finite coefficients is proved for the shipped tables, 0.2-4 micrometres, bare corner pixel."
  },
  {
   "property": "C70",
   "status": "proved",
   "theorems": [
    "C70_search",
    "C70_exact",
    "C70_only_valid_files"
   ],
   "note": "Whole function over exact reals; lstsq as an oracle."
  },
  {
   "property": "C71",
   "status": "partial",
   "theorems": [
    "C71_translation_truth",
    "C71_misfit_nonneg",
    "C71_clocking_partial",
    "C71_clocking_refuted"
   ],
   "note": "Holds for translation. The clocking cost compares surface with wavefront (no factor two, no flattening), so a wrong clocking can win (C71_clocking_refuted)."
  },
  {
   "property": "C72",
   "status": "partial",
   "theorems": [
    "C72_search",
    "C72_exact",
    "C72_misfit_square_partial",
    "C72_misfit_refuted"
   ],
   "note": "Search and exactness proved. The cost is the right one on square images without flip; rows and columns are exchanged otherwise (C72_misfit_refuted)."
  },
  {
   "property": "C73",
   "status": "partial",
   "theorems": [
    "C73_self_critical_partial",
    "C73_self_refuted"
   ],
   "note": "Proved for square images at one pixel per lambda/D. Refuted in general: C73_self_refuted."
  },
  {
   "property": "C74",
   "status": "proved",
   "theorems": [
    "C74_mean_chord_length",
    "C74_lengths_determined",
    "C74_transmission",
    "C74_inside_and_outside",
    "C74_dark_complement",
    "C74_size_monotone",
    "C74_bad_arguments"
   ],
   "note": "Exact real arithmetic; angles in degrees through the real pi. The loop invariant covers every rotation (four quadrants, including the degenerate axis-parallel ones) and rectangles clipped by the array."
  },
  {
   "property": "C75",
   "status": "proved",
   "theorems": [
    "C75_fit_of_the_filled_mask",
    "C75_padding_suffices",
    "C75_small_padding_loses_pupil",
    "C75_brightness",
    "C75_translation",
    "C75_rejections"
   ],
   "note": "cv2.findContours and cv2.fitEllipse are arguments; translation assumes they follow translations (satisfied by a bounding-box reference). Dilation and erosion are modelled. C75_small_padding_loses_pupil: without the padding the docstring asks for, pupil pixels near the edge are eroded away."
  },
  {
   "property": "C76",
   "status": "proved",
   "theorems": [
    "C76_circle",
    "C76_radius_in_range",
    "C76_brightness",
    "C76_rejections"
   ],
   "note": "canny and the Hough transform are arguments."
  },
  {
   "property": "C77",
   "status": "proved",
   "theorems": [
    "C77_value",
    "C77_mask_only",
    "C77_brightness",
    "C77_translation",
    "C77_exact_offsets",
    "C77_clocking_ignores_orientation",
    "C77_terminates",
    "C77_rejections"
   ],
   "note": "cv2 contours and ellipse, lstsq, scipy rotation and spline are arguments with hypotheses. fit_ellipse, the downsampler, the offset and clocking searches are the models of C75, C35 and the pupil/util properties. The offsets use the reference turned and flipped as asked; the clocking search uses it as stored (C77_clocking_ignores_orientation). YAML and FITS reading are the arguments."
  },
  {
   "property": "C78",
   "status": "proved",
   "theorems": [
    "C78_value",
    "C78_brightness",
    "C78_nominal",
    "C78_pixel_counts",
    "C78_rejections"
   ],
   "note": "Real amplitude maps; complex maps only through their modulus. lstsq, rotation and spline are arguments."
  },
  {
   "property": "C79",
   "status": "partial",
   "theorems": [
    "C79_value_partial",
    "C79_least_squares_partial",
    "C79_residuals_shrink_partial",
    "C79_affine_partial",
    "C79_recovers_modes_partial",
    "C79_nothing_left_partial",
    "C79_defined_partial",
    "C79_default_erosion_partial",
    "C79_any_map_refuted",
    "C79_oblong_error",
    "C79_rejections"
   ],
   "note": "Proved for square maps; side 1000000 is gen_zernikes' sentinel for an automatic size and is left out. C79_any_map_refuted: on a map that is not square the function never returns, because the fitted modes are generated on a square array. The pupil fit is any function, so all its results are covered."
  },
  {
   "property": "C80",
   "status": "proved",
   "theorems": [
    "C80_value",
    "C80_terminates",
    "C80_brightness",
    "C80_recovers",
    "C80_gain",
    "C80_no_passes",
    "C80_scale",
    "C80_rejects"
   ],
   "note": "Recovery (C80_recovers) is for whole trial steps, with unit gain or a single pass, and allows for the exception the quadratic fit may raise, as the property says; convergence for other offsets is neither claimed nor proved."
  },
  {
   "property": "C81",
   "status": "proved",
   "theorems": [
    "C81_value",
    "C81_whole_pixels",
    "C81_brightness",
    "C81_rejects"
   ],
   "note": "The spline shift of scipy is a quantified function; for whole-pixel offsets it is assumed to be the zero-filled shift (its documented behaviour)."
  },
  {
   "property": "C82",
   "status": "proved",
   "theorems": [
    "C82_value",
    "C82_recovers",
    "C82_screen",
    "C82_defined",
    "C82_sizes",
    "C82_rejects"
   ],
   "note": "The code compares phPoked1 with the first set's shape (maskfit.py:348), stated as it is by C82_sizes and C82_rejects."
  },
  {
   "property": "C83",
   "status": "proved",
   "theorems": [
    "C83_value",
    "C83_search_unique",
    "C83_peak",
    "C83_flat",
    "C83_exposure",
    "C83_terminates",
    "C83_rejects"
   ],
   "note": "The docstring's narrowing of the search each loop iteration is not done by the code (half-width is magShrinkFac*deltaMag in every iteration); C83_value states what is done. C83_flat: equal counts give magnification 1 whatever the trials are."
  },
  {
   "property": "C84",
   "status": "proved",
   "theorems": [
    "C84_orthonormal",
    "C84_rms",
    "C84_coefficient",
    "C84_mean",
    "C84_determined",
    "C84_integral_unique"
   ],
   "note": "All modes and all radii: orthonormality, rms, projection, mean, uniqueness of coefficients; integrals are Riemann integrals in polar coordinates of the exact-real values xyzern returns."
  },
  {
   "property": "C85",
   "status": "proved",
   "theorems": [
    "C85_independent",
    "C85_fit_unique",
    "C85_fit_recovers",
    "C85_fit_linear",
    "C85_pupil_fit"
   ],
   "note": "The modes are polynomials of degree at most d in each coordinate, so a combination vanishing on the grid vanishes on the pupil disc, where C84 applies. C85_pupil_fit is for square maps (other maps are refused, C79_any_map_refuted)."
  },
  {
   "property": "C86",
   "status": "proved",
   "theorems": [
    "C86_heights",
    "C86_commands",
    "C86_determined",
    "C86_heights_exact",
    "C86_commands_exact",
    "C86_linear_round_trip",
    "C86_not_inverse",
    "C86_heights_range",
    "C86_commands_range",
    "C86_rejects"
   ],
   "note": "SciPy's interp1d(kind='cubic') is any function that evaluates the not-a-knot cubic spline; such a function is constructed (scipy_ref) and the spline shown unique. Non-square DMs are refused with an error (C40_nonsquare_refuted)."
  },
  {
   "property": "C87",
   "status": "proved",
   "theorems": [
    "C87_exists",
    "C87_unique",
    "C87_samples",
    "C87_polynomial",
    "C87_dm_surface",
    "C87_influence",
    "C87_command",
    "C87_mask"
   ],
   "note": "RectBivariateSpline is specified as the not-a-knot bicubic spline (FITPACK's knots for s=0), clamped to its grid; existence and uniqueness are proved. The same spline is shown to meet every weaker requirement made of SciPy's splines in the other properties (examples)."
  },
  {
   "property": "C88",
   "status": "proved",
   "theorems": [
    "C88_superposition",
    "C88_integral_unique",
    "C88_of_sine_commands",
    "C88_peak_height_refuted"
   ],
   "note": "The docstring's other reading of height, as a bound on the peak, is refuted (C88_peak_height_refuted)."
  },
  {
   "property": "C89",
   "status": "proved",
   "theorems": [
    "C89_gain_value",
    "C89_every_command_covered",
    "C89_rejects",
    "C89_two_commands",
    "C89_one_command"
   ],
   "note": "Exact arithmetic; scipy's linear interp1d is modelled (sort, searchsorted, clipping; nan from a single point, IndexError from none)."
  },
  {
   "property": "C90",
   "status": "proved",
   "theorems": [
    "C90_real_part",
    "C90_unit_refuted"
   ],
   "note": "Equality of the two calls, including exceptions. C90_unit_refuted is the resulting failure of unit magnification to reproduce a mask with phase."
  },
  {
   "property": "C91",
   "status": "proved",
   "theorems": [
    "C91_probe",
    "C91_sine",
    "C91_grid",
    "C91_dm_zernike",
    "C91_volts",
    "C91_crop",
    "C91_crop_corner",
    "C91_combine",
    "C91_offcenter_crop",
    "C91_smooth_surface",
    "C91_mft",
    "C91_offcenter_mft",
    "C91_fresnelprop",
    "C91_influence",
    "C91_surface_to_command",
    "C91_quadrants",
    "C91_upsampled",
    "C91_zernike_maps",
    "C91_zernike_sum",
    "C91_split",
    "C91_cost",
    "C91_spots",
    "C91_bowtie",
    "C91_star_location",
    "C91_spot_separation",
    "C91_dark_hole",
    "C91_translation_clocking",
    "C91_scale",
    "C91_psffit_settings",
    "C91_psffit_shapes",
    "C91_get_fp",
    "C91_flatten",
    "C91_circle",
    "C91_ellipse",
    "C91_rectangle",
    "C91_rect_proper",
    "C91_annular_segments",
    "C91_simple_pupil",
    "C91_fresnelprop_fp",
    "C91_remove_piston_tip_tilt",
    "C91_find_optimum_2d",
    "C91_fit_zernikes"
   ],
   "note": "The first unmet requirement decides the exception, and for focal-mask offsets and dark holes an input is accepted exactly when all are met. The star searches may further raise QuadraticException on the data. For the mirror registration the requirements on maps, scalars, fitting file and the path to the registration entry are covered; failures in the calibration data behind it are not."
  },
  {
   "property": "C92",
   "status": "proved",
   "theorems": [
    "C92_cancels",
    "C92_cancels_with_dead"
   ],
   "note": "End-to-end composition of C43, C44, C63-C65. Exact reals; the spline interpolates on its grid (grid_spline), spsolve solves nonsingular systems, rotation by 0 is the identity. Off-grid actuators, clocking and DMs both mirrored and shifted sideways (finding C65) are outside the hypotheses."
  },
  {
   "property": "C93",
   "status": "partial",
   "theorems": [
    "C93_accepts_partial",
    "C93_outcomes",
    "C93_refuted",
    "C93_vanishing_request",
    "C93_vanishing_design"
   ],
   "note": "Proved in binary64 for ordinary sampling values unless start/end*size is an integer up to one part in 2^52 (C93_accepts_partial, C93_outcomes). Refuted in the remaining case: FN=28, lam0=lam=575e-9, dx=1e-6, ppl=5, rOccLamD=20, minOversize=8 gives mag = 1+2^-52 and a TypeError (C93_refuted). In exact arithmetic there is no exception (C69_magnification)."
  },
  {
   "property": "C94",
   "status": "proved",
   "theorems": [
    "C94_range",
    "C94_symmetric",
    "C94_radius_monotone",
    "C94_bad_arguments",
    "C94_nan_radius"
   ],
   "note": "Operation-by-operation binary64 model of circle(); bit equality of pixels, no overflow for values up to 2^400."
  },
  {
   "property": "C95",
   "status": "proved",
   "theorems": [
    "C95_accuracy"
   ],
   "note": "Forward error analysis of the binary64 model against the exact coverage of C31; exact rounding of the coverage away from the rim."
  },
  {
   "property": "C96",
   "status": "proved",
   "theorems": [
    "C96_annulus_exact",
    "C96_rectangle_exact",
    "C96_annulus_near",
    "C96_rectangle_near",
    "C96_tie",
    "C96_rectangle_rejects",
    "C96_annulus_rejects",
    "C96_nan_radius"
   ],
   "note": "Lengths on a grid of 2^-t pixels give the exact mask (the same specification as the real-number model of C37); any other finite doubles give it up to a rim of 2^(k-47) pixels, and C96_tie shows that the tolerance cannot be dropped. Annular sectors and bowties are not covered: they use numpy's arctan2, exp and angle, whose rounding is not specified. C96_nan_radius records that a NaN radius is accepted and gives an empty mask."
  },
  {
   "property": "C97",
   "status": "partial",
   "theorems": [
    "C97_estimate_tried",
    "C97_steps_ordered",
    "C97_steps_near",
    "C97_steps_exact_partial",
    "C97_symmetric_refuted",
    "C97_range_ends",
    "C97_range_single",
    "C97_range_ordered",
    "C97_range_near",
    "C97_zero_tried_partial",
    "C97_zero_tried_refuted",
    "C97_shrunk_ordered",
    "C97_shrunk_estimate_partial"
   ],
   "note": "Ordering, ends, accuracy and the presence of the current estimate are proved for all moderate doubles. Exact symmetry and the presence of zero in a range of odd length are proved for steps that are short binary fractions and for 2^m+1 values; elsewhere they are false (C97_symmetric_refuted: five steps of 0.1; C97_zero_tried_refuted: 23 values in [-0.1, 0.1])."
  },
  {
   "property": "C98",
   "status": "partial",
   "theorems": [
    "C98_fill_partial",
    "C98_fill_near",
    "C98_fill_refuted",
    "C98_fill_float",
    "C98_fill_bool_nan",
    "C98_refused",
    "C98_window",
    "C98_window_refused"
   ],
   "note": "Proved for booleans, floats and integers up to 2^53. An integer fill beyond 2^53 goes through a double (extrapval * np.ones) and may differ by up to 512 below 2^62 (C98_fill_near), so 'the padding is extrapval' is refuted for 64-bit integers (C98_fill_refuted). Values that do not fit the integer type are left to the machine."
  },
  {
   "property": "C99",
   "status": "proved",
   "theorems": [
    "C99_combine",
    "C99_combine_refused",
    "C99_crop",
    "C99_crop_refused",
    "C99_integers",
    "C99_sent"
   ],
   "note": "32-bit and unsigned element types are not modelled; numpy's warning about a dropped imaginary part is not."
  },
  {
   "property": "C100",
   "status": "proved",
   "theorems": [
    "C100_range",
    "C100_pupil_bounds",
    "C100_more_struts",
    "C100_ellipse_half_turn",
    "C100_ellipse_mirror",
    "C100_ellipse_transposed",
    "C100_rectangle_moves",
    "C100_segments_move",
    "C100_rectangle_mirror",
    "C100_refusals"
   ],
   "note": "Operations of the code in binary64, one by one; sine, cosine, arctan2 and the square of a Python float are arguments. Ellipses do not move exactly with their offset because the antialiasing window is measured at the array corner."
  },
  {
   "property": "C101",
   "status": "proved",
   "theorems": [
    "C101_rectangle",
    "C101_pupil"
   ],
   "note": "Sizes and offsets up to 2^36 pixels (2^35 for pupils), rotations up to 1024 degrees; the C library is any that is accurate to about one ulp (libm_ref is one). simple_pupil: diameters of at least 2^-1000 pixels or zero."
  },
  {
   "property": "C102",
   "status": "proved",
   "theorems": [
    "C102_center_bad_pixel",
    "C102_center",
    "C102_center_point_source",
    "C102_quad_bad_pixel",
    "C102_quad_bad_inside",
    "C102_quad_saturated_outside",
    "C102_quad",
    "C102_quad_nan_radius",
    "C102_rms_bad_value",
    "C102_rms"
   ],
   "note": "Doubles are Flocq binary64; numpy.sum is any routine adding two by two in some order. Images of integer type are not covered. The two blind spots of the balance are theorems (C102_quad_saturated_outside, C102_quad_nan_radius) and findings."
  },
  {
   "property": "C103",
   "status": "partial",
   "theorems": [
    "C103_target_partial",
    "C103_source_partial",
    "C103_shift",
    "C103_shift_refuted",
    "C103_clean"
   ],
   "note": "Amplitude proved (C103_target_partial, C103_source_partial); the claim for the shift is refuted (C103_shift_refuted), its value is C103_shift. C103_clean ties the model to that of C45 and C46. That the FFT and the matrix products spread a nan to every output is part of the model."
  },
  {
   "property": "C104",
   "status": "proved",
   "theorems": [
    "C104_bad_pixel_spots",
    "C104_bad_pixel_bowtie",
    "C104_bounded_spots",
    "C104_bounded_bowtie",
    "C104_measures_spots",
    "C104_measures_bowtie",
    "C104_sign",
    "C104_monotone_spots",
    "C104_monotone_bowtie",
    "C104_dim_light",
    "C104_accuracy_linear",
    "C104_accuracy_quadratic",
    "C104_nan_limit_spots",
    "C104_nan_limit_bowtie"
   ],
   "note": "Spots and bowtie measurements over IEEE doubles: bad pixels, exact bounds, totality on photon counts, sign and monotonicity after rounding. The regions are those of the double-precision circle model; libm cos and sin and numpy.sum are quantified. C104_dim_light shows why counts are assumed: a region with less light than 2^-52 is treated as fainter than a dark one."
  },
  {
   "property": "C105",
   "status": "partial",
   "theorems": [
    "C105_refuses",
    "C105_coefficients",
    "C105_accuracy_partial",
    "C105_first_45_modes",
    "C105_high_order_refuted",
    "C105_overflow",
    "C105_overflow_sum"
   ],
   "note": "Proved up to radial order 22 (the first 276 modes): coefficients exact, value within an explicit bound, below 1e-10 for the first 45 modes; plus the exact refusals. The general claim is refuted: at orders (50, 0) the rim value is off by more than 200 with correctly rounded library routines, and from radial order 171 on every pixel is nan or infinite. Orders 23 to 170 have no accuracy bound."
  },
  {
   "property": "C106",
   "status": "partial",
   "theorems": [
    "C106_mft_accurate",
    "C106_imft_accurate",
    "C106_offcenter_accurate",
    "C106_round_trip",
    "C106_mft_refused",
    "C106_imft_refused",
    "C106_offcenter_refused",
    "C106_padding_exact_refuted"
   ],
   "note": "The error bounds, the finiteness, the round trip at critical sampling and the exact refusals are proved. The claim that a border of zeros does not change the result is false of the code in doubles (C106_padding_exact_refuted)."
  },
  {
   "property": "C107",
   "status": "partial",
   "theorems": [
    "C107_transfer",
    "C107_sampling_partial",
    "C107_enough_refuted",
    "C107_too_few_refuted",
    "C107_propagation",
    "C107_with_factor",
    "C107_factor_same",
    "C107_round_trip",
    "C107_do_fft",
    "C107_do_ifft",
    "C107_fft_round_trip",
    "C107_propagated_unique",
    "C107_zero_distance",
    "C107_get_fp_refused",
    "C107_fresnelprop_refused",
    "C107_fresnelprop_fp_refused",
    "C107_fft_refused"
   ],
   "note": "Accuracy, refusals and zero distance are proved in full. The sampling criterion is decided correctly only away from equality: 255 points, which are enough for 510 nm over 1.25 m at 20000 pixels per metre, are refused (the rounded product is 255.00000000000003), and 220 points are accepted for the double 5.5e-07 over 1 m although the exact product exceeds 220."
  }
 ]
}