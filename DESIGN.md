# Formal model of coralign in Rocq (Coq 8.16.1)

## 1. Method

`/verif/rocq/theories` holds

* `Base/`   small numeric and array library (no modelling of coralign itself);
* `Model/`  the model: one file per source module, definitions only, each citing file and lines of /repo;
* `Spec/`   short independent specifications used in theorem statements (where the statement is not already elementary);
* `Proofs/` lemmas;
* `Props/`  the property theorems only, each closed by `exact`, followed by `Print Assumptions`,
            with a non-vacuity `Example` beside it.

### Modelling conventions

* **Exceptions are values**: `res A := Ok a | Err e` with `e` the Python exception class.
* **2-D arrays** are a record of two sizes (`Z`) and an index function; two arrays are equal (`aeq`) when sizes and all
  in-range elements are. numpy slice semantics (negative start, clamping, shape mismatch) are modelled explicitly where
  the code uses computed slices.
* **Numbers.** Integers are `Z`. Floating-point numbers are modelled by exact reals `R` (complex by `C = R*R`), so
  theorems say what the algorithm computes in exact arithmetic. Where rounding or NaN is the point of the property
  (check.py, ceil_even/ceil_odd, Noll square root, bound_value, search-step loop, HLC magnification, antialiased shapes, dark hole rectangle and annulus, search grids, padding of typed arrays, NaN marking) a separate model over
  IEEE binary64 (Flocq) or over an option type with NaN is used.
* **Argument type checks** that only reject values of the wrong Python type are absent from typed models (the Coq type
  plays that role); value checks (sign, range, shape) are modelled in source order. check.py itself is modelled over a
  universe of dynamic Python values.
* **Third-party routines** (numpy.linalg.lstsq, numpy.linalg.solve, scipy splines, scipy.ndimage.rotate,
  skimage unwrap_phase, yaml) enter as explicitly quantified functions or relations with the assumed behaviour written
  as a hypothesis of the theorem; nothing is an axiom. np.fft.fft2/ifft2 are modelled by the DFT sums that define them.

## 2. Trusted base

* Coq's kernel (8.16.1) and coqchk.
* Axioms reported by `Print Assumptions` below the theorems: only those of the standard library's classical reals
  (`ClassicalDedekindReals.sig_forall_dec`, `ClassicalDedekindReals.sig_not_dec`,
  `FunctionalExtensionality.functional_extensionality_dep`, and `Classical_Prop.classic` where Flocq/Coquelicot lemmas
  use it; `ClassicalEpsilon.constructive_indefinite_description` in one theorem, C51_segments_recovers). Purely discrete theorems are closed under the global context.
* The reading of the Python source recorded in the comments of `Model/`.
* The behaviour of numpy/scipy stated as hypotheses or as definitions in `Base/` and `Model/`.

### Print Assumptions of each theorem

Regenerated by `tools/assumptions.py` from the compiled files.

<!-- assumptions -->
F = `ClassicalDedekindReals.sig_forall_dec`, N = `ClassicalDedekindReals.sig_not_dec`,
X = `FunctionalExtensionality.functional_extensionality_dep`, C = `Classical_Prop.classic`.

* **C ClassicalEpsilon.constructive_indefinite_description F N X** (1 theorems): `C51_segments_recovers`
* **C F N X** (273 theorems): `C08_ceil_even_all_doubles_refuted`, `C08_ceil_even_binary64`, `C08_ceil_nonfinite`, `C08_ceil_odd_binary64`, `C09_cart2pol_array`, `C09_cart2pol_errors`, `C09_cart2pol_scalar`, `C10_noll_binary64`, `C11_xyzern`, `C11_xyzern_errors`, `C12_concatenation`, `C12_defined_iff`, `C12_gen_zernikes`, `C12_linear`, `C12_permutation`, `C13_fit_errors`, `C13_fit_optimal`, `C13_fit_recovers`, `C24_probe_bound`, `C29_mirror`, `C29_plain_balance_refuted`, `C31_dark_complement`, `C31_radius_monotone`, `C32_ellipse_coverage_refuted`, `C32_ellipse_range`, `C33_bad_arguments`, `C33_rectangle_coverage`, `C33_rectangle_errors`, `C34_bad_arguments`, `C34_rotation_360_refuted`, `C34_transmission_partial`, `C35_bad_arguments`, `C35_more_struts`, `C35_one_column`, `C35_pupil_range`, `C35_pupil_value`, `C35_strut_order`, `C36_always_boolean_refuted`, `C36_from_file`, `C36_invalid_shape_name`, `C36_only_valid_files`, `C36_order_irrelevant`, `C36_union_partial`, `C37_bowtie`, `C37_bowtie_point_symmetric`, `C37_full_opening_is_annulus`, `C37_radii_in_wrong_order`, `C37_sector`, `C42_reversed_axis`, `C42_sign`, `C43_flatten_dead`, `C43_flatten_sizes`, `C44_flatten_balanced`, `C44_flatten_modes`, `C44_flatten_phases`, `C44_orthogonal`, `C44_split`, `C44_split_defined`, `C44_split_small_maxNoll`, `C47_energy`, `C47_total_reflection`, `C48_zero_film_passive`, `C49_disc`, `C49_terminates`, `C52_at_centre`, `C52_documented_refuted`, `C52_exact`, `C52_relative_to_guess`, `C52_zero_guess_partial`, `C56_converges_refuted`, `C56_search`, `C57_float_trials_ascend`, `C57_float_trials_partial`, `C57_float_trials_refuted`, `C57_refuses`, `C58_clocking`, `C58_window_refuted`, `C59_dm_zernike`, `C60_near_centre_refuted`, `C60_segments_coverage_partial`, `C62_bowtie_sign`, `C63_fcm`, `C63_no_dms`, `C64_flatten_surfaces`, `C66_convention`, `C66_occulter`, `C66_passive`, `C67_airy`, `C67_fresnel`, `C67_mean`, `C67_occulter`, `C67_pixelwise`, `C68_phase_jump`, `C69_blank`, `C69_radius`, `C69_start`, `C69_start_exists`, `C69_value`, `C70_exact`, `C70_search`, `C71_clocking_refuted`, `C72_misfit_refuted`, `C72_search`, `C77_brightness`, `C77_exact_offsets`, `C77_mask_only`, `C77_translation`, `C77_value`, `C78_brightness`, `C78_pixel_counts`, `C78_value`, `C79_affine_partial`, `C79_any_map_refuted`, `C79_default_erosion_partial`, `C79_defined_partial`, `C79_least_squares_partial`, `C79_nothing_left_partial`, `C79_oblong_error`, `C79_recovers_modes_partial`, `C79_rejections`, `C79_residuals_shrink_partial`, `C79_value_partial`, `C80_brightness`, `C80_gain`, `C80_recovers`, `C80_value`, `C81_brightness`, `C81_value`, `C81_whole_pixels`, `C83_exposure`, `C83_terminates`, `C83_value`, `C84_coefficient`, `C84_determined`, `C84_mean`, `C84_orthonormal`, `C84_rms`, `C85_fit_linear`, `C85_fit_recovers`, `C85_fit_unique`, `C85_independent`, `C85_pupil_fit`, `C88_of_sine_commands`, `C88_superposition`, `C91_annular_segments`, `C91_bowtie`, `C91_dark_hole`, `C91_dm_zernike`, `C91_fit_zernikes`, `C91_flatten`, `C91_psffit_settings`, `C91_psffit_shapes`, `C91_rectangle`, `C91_scale`, `C91_simple_pupil`, `C91_split`, `C91_spot_separation`, `C91_spots`, `C91_star_location`, `C91_translation_clocking`, `C91_zernike_maps`, `C91_zernike_sum`, `C92_cancels`, `C92_cancels_with_dead`, `C93_accepts_partial`, `C93_outcomes`, `C93_refuted`, `C93_vanishing_design`, `C93_vanishing_request`, `C94_bad_arguments`, `C94_nan_radius`, `C94_radius_monotone`, `C94_range`, `C94_symmetric`, `C95_accuracy`, `C96_annulus_exact`, `C96_annulus_near`, `C96_annulus_rejects`, `C96_nan_radius`, `C96_rectangle_exact`, `C96_rectangle_near`, `C96_rectangle_rejects`, `C96_tie`, `C97_estimate_tried`, `C97_range_ends`, `C97_range_near`, `C97_range_ordered`, `C97_range_single`, `C97_shrunk_estimate_partial`, `C97_shrunk_ordered`, `C97_steps_exact_partial`, `C97_steps_near`, `C97_steps_ordered`, `C97_symmetric_refuted`, `C97_zero_tried_partial`, `C97_zero_tried_refuted`, `C98_fill_bool_nan`, `C98_fill_float`, `C98_fill_near`, `C98_fill_partial`, `C98_fill_refuted`, `C98_refused`, `C98_window`, `C98_window_refused`, `C99_combine`, `C99_combine_refused`, `C99_crop`, `C99_crop_refused`, `C99_integers`, `C99_sent`, `C100_ellipse_half_turn`, `C100_ellipse_mirror`, `C100_ellipse_transposed`, `C100_more_struts`, `C100_pupil_bounds`, `C100_range`, `C100_rectangle_mirror`, `C100_rectangle_moves`, `C100_refusals`, `C100_segments_move`, `C101_pupil`, `C101_rectangle`, `C102_center`, `C102_center_bad_pixel`, `C102_center_point_source`, `C102_quad`, `C102_quad_bad_inside`, `C102_quad_bad_pixel`, `C102_quad_nan_radius`, `C102_quad_saturated_outside`, `C102_rms`, `C102_rms_bad_value`, `C104_accuracy_linear`, `C104_accuracy_quadratic`, `C104_bad_pixel_bowtie`, `C104_bad_pixel_spots`, `C104_bounded_bowtie`, `C104_bounded_spots`, `C104_dim_light`, `C104_measures_bowtie`, `C104_measures_spots`, `C104_monotone_bowtie`, `C104_monotone_spots`, `C104_nan_limit_bowtie`, `C104_nan_limit_spots`, `C104_sign`, `C105_accuracy_partial`, `C105_coefficients`, `C105_first_45_modes`, `C105_high_order_refuted`, `C105_overflow`, `C105_overflow_sum`, `C105_refuses`, `C106_imft_accurate`, `C106_imft_refused`, `C106_mft_accurate`, `C106_mft_refused`, `C106_offcenter_accurate`, `C106_offcenter_refused`, `C106_padding_exact_refuted`, `C106_round_trip`, `C107_enough_refuted`, `C107_fresnelprop_fp_refused`, `C107_fresnelprop_refused`, `C107_get_fp_refused`, `C107_propagation`, `C107_round_trip`, `C107_sampling_partial`, `C107_too_few_refuted`, `C107_transfer`, `C107_with_factor`, `C107_zero_distance`
* **C F X** (3 theorems): `C31_coverage_determined`, `C75_small_padding_loses_pupil`, `C75_translation`
* **F** (5 theorems): `C21_poke_array`, `C23_errors`, `C43_new_command`, `C45_config`, `C91_grid`
* **F N X** (188 theorems): `C09_polar_unique`, `C09_rms`, `C09_rms_homogeneous`, `C10_noll_decode`, `C10_noll_range`, `C14_centre_pixel_is_sum`, `C14_defined`, `C14_do_fft_is_centred_spectrum`, `C14_fft_of_ifft`, `C14_ifft_of_fft`, `C14_parseval`, `C15_compose`, `C15_defined`, `C15_errors`, `C15_inverse`, `C15_transfer_function`, `C15_zero_distance`, `C16_energy_conserved_on_grid`, `C16_energy_conserved_square`, `C16_energy_never_grows`, `C17_agree`, `C17_linear`, `C17_two_step`, `C18_errors`, `C18_linear`, `C18_mft_value`, `C18_offcenter_is_embedding`, `C18_offcenter_misfit_refused`, `C18_shift_is_phase`, `C19_imft_inverts_mft`, `C19_imft_value`, `C20_defined`, `C20_heights_recovered`, `C20_units`, `C20_volts_recovered`, `C21_accepts_only`, `C21_camera_sampling`, `C21_defined`, `C21_design_grid`, `C21_errors`, `C21_linear`, `C21_shape`, `C21_zero_heights`, `C24_probe_bound_reached`, `C24_probe_defined`, `C24_probe_flip`, `C24_probe_quarter_turn`, `C24_probe_rejects`, `C24_probe_translate`, `C24_sine_bound`, `C24_sine_centre`, `C24_sine_flip`, `C24_sine_period`, `C24_sine_rejects`, `C24_sine_value`, `C29_accepts_partial`, `C29_balance_dark_axes_partial`, `C29_balance_partial`, `C29_finite`, `C29_inside_origin_refuted`, `C29_zero_sum`, `C31_bad_arguments`, `C31_circle_coverage`, `C32_bad_arguments`, `C32_ellipse_coverage_partial`, `C32_single_subpixel`, `C37_annulus`, `C37_rectangle`, `C41_bad_ratio`, `C41_quadratic_antisymmetric`, `C41_quadratic_increasing`, `C41_quadratic_inverts`, `C41_unchecked_coefficients`, `C41_zero_at_one`, `C42_bounded`, `C42_estimate`, `C42_only_valid_files`, `C44_balanced_fraction`, `C44_cost`, `C44_cost_errors`, `C45_circular`, `C45_defined`, `C45_exact`, `C45_interpolation`, `C45_peak`, `C45_subpixel`, `C46_of_psffit`, `C46_recovers`, `C47_domain`, `C47_grazing`, `C48_split`, `C48_zero_film`, `C49_on_image_refuted`, `C49_one_pixel`, `C49_pass`, `C49_pass_rejects`, `C49_rejects`, `C51_any_mask`, `C51_recovers`, `C51_segments_values`, `C51_values`, `C52_only_valid_files`, `C53_edge_refuted`, `C53_rejects`, `C53_small`, `C53_unit`, `C53_value`, `C53_whole`, `C57_accepts`, `C57_brightness`, `C57_matching_trial`, `C57_range`, `C57_refuses_guess`, `C57_refuses_missing`, `C57_refuses_scalar_file`, `C57_refuses_shapes`, `C57_residual_unique`, `C57_search`, `C58_clocking_rejects`, `C58_lateral`, `C58_lateral_rejects`, `C58_recovers`, `C62_bowtie_estimate`, `C62_only_valid_files`, `C63_fcm_zero_factor`, `C65_flip_shift_refuted`, `C65_round_trip_partial`, `C66_rejects`, `C69_rejects`, `C70_only_valid_files`, `C71_clocking_partial`, `C71_translation_truth`, `C72_misfit_square_partial`, `C73_self_critical_partial`, `C73_self_refuted`, `C74_bad_arguments`, `C74_dark_complement`, `C74_inside_and_outside`, `C74_mean_chord_length`, `C74_size_monotone`, `C74_transmission`, `C77_clocking_ignores_orientation`, `C77_rejections`, `C77_terminates`, `C78_nominal`, `C78_rejections`, `C80_no_passes`, `C80_rejects`, `C80_scale`, `C80_terminates`, `C81_rejects`, `C82_defined`, `C82_recovers`, `C82_rejects`, `C82_screen`, `C82_sizes`, `C82_value`, `C83_rejects`, `C84_integral_unique`, `C87_dm_surface`, `C87_mask`, `C88_integral_unique`, `C88_peak_height_refuted`, `C90_real_part`, `C90_unit_refuted`, `C91_circle`, `C91_cost`, `C91_ellipse`, `C91_fresnelprop`, `C91_fresnelprop_fp`, `C91_get_fp`, `C91_mft`, `C91_offcenter_mft`, `C91_probe`, `C91_quadrants`, `C91_rect_proper`, `C91_sine`, `C91_upsampled`, `C91_volts`, `C103_clean`, `C103_shift`, `C103_shift_refuted`, `C103_source_partial`, `C103_target_partial`, `C107_do_fft`, `C107_do_ifft`, `C107_factor_same`, `C107_fft_round_trip`, `C107_propagated_unique`
* **F X** (151 theorems): `C03_offcenter_crop_pointwise`, `C07_real_nonnegative_scalar`, `C07_real_positive_scalar`, `C07_real_scalar`, `C08_ceil_even`, `C08_ceil_fixpoints`, `C08_ceil_monotone`, `C08_ceil_odd`, `C11_coefficients`, `C11_radial_edge`, `C12_auto_size_centred`, `C12_auto_size_offset_refuted`, `C22_fit_inverts_partial`, `C22_nonsymmetric_refuted`, `C22_reflected_kernel`, `C22_resampled_kernel`, `C23_grid`, `C23_partition`, `C25_affine_invariant`, `C25_raises`, `C25_separates`, `C25_threshold_at_first_valley`, `C26_exact_parabola`, `C26_least_squares_vertex`, `C26_length_mismatch`, `C26_nothing`, `C26_shift`, `C27_best_surface_exists`, `C27_exact_quadratic_partial`, `C27_least_squares_partial`, `C27_nondegenerate_refuted`, `C27_shape_mismatch`, `C27_stationary`, `C28_centroid`, `C28_degenerate`, `C28_documented_order_refuted`, `C28_inside`, `C28_point_source`, `C28_scale`, `C28_translate`, `C30_idempotent`, `C30_least_residual`, `C30_plane_invariant`, `C30_plane_to_zero`, `C30_projection`, `C30_shape_mismatch`, `C38_accepted_nearly_sorted_partial`, `C38_ascending_differences`, `C38_positive_differences_refuted`, `C38_presorted_refuted`, `C38_sorted_accepted`, `C38_unique_values`, `C39_nonsquare_refuted`, `C39_quadratic_square_partial`, `C40_calibration_points_partial`, `C40_clamped_partial`, `C40_constant_gain_partial`, `C40_decreasing_refuted`, `C40_nonsquare_refuted`, `C40_saturates_partial`, `C41_bound_value`, `C41_linear_antisymmetric`, `C41_linear_increasing`, `C41_linear_inverts`, `C43_reassign`, `C43_reassign_defined`, `C43_reassign_refused`, `C46_optimal`, `C46_proportional`, `C46_undefined`, `C49_disc_pass`, `C49_unique`, `C50_bounds`, `C50_ends`, `C50_monotone`, `C50_rejects`, `C50_scales`, `C50_value`, `C51_accepts`, `C51_number_mask_unusable`, `C51_rejects`, `C51_segments_rejects`, `C53_average`, `C53_average_inside`, `C55_accepts`, `C55_rejects`, `C55_usable`, `C56_overshoot`, `C56_pass`, `C56_single_pass_partial`, `C56_translation`, `C56_unshrunk_partial`, `C58_angles`, `C58_cone`, `C58_estimate_unique`, `C58_symmetric`, `C58_trials`, `C58_window_partial`, `C61_between_refuted`, `C61_constant_gain_partial`, `C61_cubic_response_partial`, `C61_delta_heights_partial`, `C61_transfer_partial`, `C64_passes`, `C64_smooth`, `C64_surface`, `C65_sample`, `C65_zero`, `C66_pmgi`, `C69_magnification`, `C71_misfit_nonneg`, `C72_exact`, `C74_lengths_determined`, `C75_brightness`, `C75_fit_of_the_filled_mask`, `C75_padding_suffices`, `C75_rejections`, `C76_brightness`, `C76_circle`, `C76_radius_in_range`, `C76_rejections`, `C83_flat`, `C83_peak`, `C83_search_unique`, `C86_commands`, `C86_commands_exact`, `C86_commands_range`, `C86_determined`, `C86_heights`, `C86_heights_exact`, `C86_heights_range`, `C86_linear_round_trip`, `C86_not_inverse`, `C86_rejects`, `C87_command`, `C87_exists`, `C87_influence`, `C87_polynomial`, `C87_samples`, `C87_unique`, `C89_every_command_covered`, `C89_gain_value`, `C89_one_command`, `C89_rejects`, `C89_two_commands`, `C91_find_optimum_2d`, `C91_influence`, `C91_offcenter_crop`, `C91_remove_piston_tip_tilt`, `C91_smooth_surface`, `C91_surface_to_command`
* **none** (36 theorems): `C01_pad_crop_errors`, `C01_pad_crop_pointwise`, `C02_pad_crop_any_order_refuted`, `C02_pad_crop_chain`, `C02_pad_crop_roundtrip`, `C02_pad_crop_same_size`, `C04_crop_crop`, `C04_crop_pointwise`, `C04_crop_rejects`, `C05_combine_pointwise`, `C05_combine_rejects`, `C05_combine_union`, `C06_crop_centred`, `C06_get_crop_lower`, `C06_get_crop_lower_rejects`, `C07_bad_name_or_class`, `C07_boolean`, `C07_dictionary`, `C07_documented_contract_refuted`, `C07_nonnegative_scalar_integer`, `C07_positive_scalar_integer`, `C07_rank_arrays`, `C07_real_array`, `C07_scalar_integer`, `C07_string`, `C07_twoD_square_array`, `C10_noll_bijection`, `C22_size_check`, `C51_erosion_default`, `C51_erosion_subset`, `C54_failures_use_custom_exception`, `C54_value_only_from_file`, `C91_combine`, `C91_crop`, `C91_crop_corner`, `C107_fft_refused`
<!-- end assumptions -->

### What is modelled

| source file | model | left out |
|-------------|-------|----------|
| buildmodel/darkhole.py | DarkHole.v, Yaml.v, DarkHoleF.v (rectangle and annulus in binary64) | rounding of arctan2, exp and angle |
| conjugate/conjugate.py | Conjugate.v | FITS/YAML file reading (contents are arguments) |
| dmreg/dmreg.py, dr_util.py | DmReg.v, Fits.v | file reading |
| focalfit/focalfit.py, ff_util.py | FocalFit.v (reals), FocalFitF.v (doubles) | - |
| gainmap/gainmap.py, gm_util.py | GainMap.v | file reading |
| maskgen/maskgen.py | MaskGen.v, MaskGenC.v (complex masks), MaskGenF.v (magnification in binary64) | file reading |
| maskgen/util/thinfilm.py | ThinFilm.v | reading of the table files (their contents are transcribed) |
| occastro/occastro.py | Occastro.v, SearchF.v (trial grids in binary64) | rounding elsewhere |
| platesolv/platesolv.py | PlateSolv.v (trial grid also in binary64) | rounding elsewhere |
| psffit/psffit.py | PsfFit.v, PsfFitN.v (nan pixels) | images with other than two dimensions; infinite pixels |
| pupil/util.py | PupilUtil.v | debug plots |
| pupil/pupilfit.py | PupilFit.v | file reading; debug plots; complex maps in the old fit |
| pupil/maskfit.py | MaskFit.v | file reading; debug plots |
| util/ampthresh.py, center.py, quad.py, findopt.py | Fits.v, QuadNum.v, BrightF.v (center and quad in binary64, any summation order) | NaN/inf images in ampthresh; integer images in binary64 |
| util/check.py | Check.v | Python types outside the value universe of that file |
| util/combine_crop.py, pad_crop.py, get_crop_lower.py | PadCrop.v, PadCropT.v, FrameT.v (element types, conversion to and padding in binary64) | 32-bit and unsigned element types |
| util/debug.py | - | plotting only |
| util/dmhtoph.py, dmshapes.py, fit_surf_to_dm.py | Dm.v | rounding |
| util/fit_shapes.py | FitShapes.v | - (cv2, skimage are arguments) |
| util/fresnelprop.py | Fresnel.v, FresnelF.v | the bodies of fft2, ifft2, hypot, exp (FresnelF.v: oracles); real fields in binary64 |
| util/mft.py | Mft.v (reals), MftF.v (doubles) | in doubles, arrays of more than 2^20 rows or columns |
| util/loadyaml.py | Yaml.v | the YAML parser itself |
| util/math.py | Math.v, BrightF.v (rms in binary64) | - |
| util/nollzernikes.py | Noll.v (reals), NollF.v (doubles) | rounding in the fitting functions; in doubles, indices above 2^48 |
| util/shapes.py | Shapes.v, RectProper.v, ShapesF.v (circle in binary64), ShapesG.v (ellipse, rectangle, annular_segments, simple_pupil in binary64; libm is an argument) | rounding in rect_proper |
| util/unwrap.py | Unwrap.v | NaN or infinite phase and amplitude |

Everywhere: floating-point rounding (except where section 1 says binary64), memory limits, warnings, plotting.

## 3. Plan per property

| id | model | proof |
|----|-------|-------|
| C01,C02 | pad_crop with its slice arithmetic over arrays of any element type | pointwise characterisation by integer arithmetic; chain laws from it; counterexample for unrestricted chaining |
| C03 | offcenter_crop calling the pad_crop model, np.round half-even on reals | pointwise characterisation |
| C04,C05,C06 | crop/combine/get_crop_lower, NaN as `None` | integer arithmetic |
| C07 | universe of dynamic values, all checkers | case analysis; accept-iff statements |
| C08 | reals and Flocq binary64 | floor/ceil lemmas; Flocq rounding lemmas |
| C09 | reals, atan2 | trigonometry |
| C10 | Z arithmetic with real sqrt; Flocq sqrt | triangular-number bounds, bijection by arithmetic |
| C11 | coefficient recurrences over nat/Z loops | induction; binomial identity |
| C12,C13 | gen_zernikes as sum over index list, least squares as relation | linearity, projection |
| C14-C17 | DFT over C with fftshift/ifftshift, Fresnel kernel | roots of unity orthogonality, Parseval |
| C18,C19 | MFT matrices over C | sum manipulation, roots of unity |
| C20,C21 | dmh/volts, poke array and convolution, spline/rotation oracles | algebra |
| C22 | build_prefilter matrix, solve as relation | symmetric-kernel theorem, refutation otherwise |
| C23,C24 | strided assignment; reals | modular arithmetic; trigonometry |
| C25 | histogram over reals | order arguments |
| C26,C27 | polyfit / lstsq as least-squares relation | unisolvence, linear algebra |
| C28,C29 | weighted sums over arrays | sum lemmas; refutations |
| C30 | lstsq relation, projection | inner-product argument valid for any rank |
| C31-C35 | coordinates, windows and subpixel averaging over reals | distance inequalities; refutations |
| C36,C37 | boolean masks over reals | case analysis |
| C38-C40 | vector checks with allclose semantics, cube indexing, interp1d | order arguments, algebra; refutations |
| C41,C42 | reals and (bound_value) binary64 | algebra with sqrt |
| C43,C44 | mask arithmetic, zernike split, cost function | algebra |
| C45,C46 | DFT cross-correlation | DFT lemmas, Cauchy-Schwarz |
| C47,C48 | transfer-matrix product over C | matrix invariants by induction over layers |
| C49 | search loops | argmax lemmas; termination by strict decrease |
| C50 | percentile by sorting | order arguments |
| C51 | unwrap with unwrap_phase oracle | case analysis |
| C52 | state machine of the iteration with find_optimum oracle | counterexample / invariant |
| C53 | size arithmetic, oracles for rotate and spline | integer arithmetic |
| C54 | outcome type of open/parse | case analysis |
| C55,C56 | binary erosion; clocking update | pointwise; refutation |
| C57,C58 | trial grids and argmin; the trial grid also in doubles | list lemmas; error bounds for numpy.arange |
| C59 | dmshapes.zernike on the Noll model | pointwise |
| C60 | annular segments over reals | distance and angle inequalities; refutation near the centre |
| C61,C86 | conversion between command and height maps | spline as any function through its points, then as the not-a-knot cubic spline: existence and uniqueness by elimination in the tridiagonal system of second derivatives |
| C87 | resampling by RectBivariateSpline in dmhtoph, resample_inf_func, conv_surf_to_dm_cmd, rotate_shift_downsample | tensor product of one-dimensional not-a-knot splines: existence as a sum over cardinal splines, uniqueness and polynomial exactness axis by axis, invariance under change of unit and mirroring; the model functions reduce to one evaluation |
| C62,C63 | whole functions of the earlier pieces | composition of the lemmas |
| C64 | smoothing by a kernel | convexity |
| C65 | DM surface to command with spline, rotation oracles | sampling at integer points; refutation for flips |
| C66-C68 | thin-film tables, transfer matrices, complex square root | invariants by induction over layers, algebra over C |
| C69 | gen_hlc_occulter with file contents as arguments | composition of C48, C53 and C66 |
| C70 | spot-separation loop with find_optimum | induction over iterations |
| C71,C72 | DM registration costs and searches | argmin lemmas, exactness, refutations |
| C73 | platesolv composed with MFT | roots of unity; refutation |
| C74 | rect_proper, loop over rows with running corner indices | loop invariant: each row is painted between the two edge functions |
| C75,C76 | fit_shapes: morphological closing modelled, cv2/skimage as arguments | pointwise closing theorem by induction over passes |
| C77,C78 | pupilfit: composition of threshold, ellipse, downsampling, offset and clocking searches | inversion of the composition; equivariance of each step; fixed concrete pupil run end to end |
| C79 | fit_pupil_zernikes with numpy broadcasting and any pupil fit | normal equations; uniqueness from independence of modes; non-square maps refuted |
| C80 | fit_pupil_mask_offsets with the lateral fit of C58 | pass-by-pass specification; recovery from the shift theorem of the lateral fit; homogeneity of the normalised amplitude |
| C81 | fit_shaped_pupil_mask_offsets, shift as a quantified function | reduction to C80 on the shifted image |
| C82 | fit_z_induced_spm_shear over unwrap, software mask and psffit | uniqueness of the unwrapped, flattened signature; psffit recovery |
| C83 | fit_lyot_stop_mag_clocking, all stages | specification as a chain of stages; uniqueness of the least-squares parabola and its vertex |
| C84 | modes of xyzern as functions of the point | finite differences for the radial moments, trigonometric integrals, Riemann integral in polar coordinates |
| C85 | fit_zernikes, fit_pupil_zernikes on a mask with a grid of usable pixels | modes as polynomials, zeros of polynomials, C84, normal equations |
| C88 | probe, sine | integral of a sinusoid, twice, against the closed formula |
| C89 | compute_gainmap on any calibration | the bracketing pair found by searchsorted is the interval of the command, with ties on either side equal; two commands, one command and none are treated apart |
| C90 | rotate_shift_downsample_amplitude_mask on complex arrays | convolution theorem with a real window; padding commutes with taking real parts |
| C91 | order of the checks in focalfit, occastro, darkhole, dmreg, mft, fresnelprop, the DM surface functions, DM shapes, crops, smoothing, quadrants, nollzernikes, the mask shapes and the masked fits | each check matched with one requirement of an ordered list; the exception is that of the first unmet one |
| C92 | flatten end to end | composition: fitted modes and remainder (C44) -> surfaces on illuminated pixels (C64) -> commands reproducing the surface at the actuators (C65) -> dead-actuator bookkeeping and units (C43, C63); linearity of the mirror surface in its command |
| C93 | HLC magnification in binary64 | Flocq model of lines 249-257; relative error of each rounding and monotonicity of rounding bound the computed magnification by one unless the product is a near integer; witness by evaluation |
| C94 | circle() operation by operation in binary64 | pixel grids are exact; rounding is odd and monotone, so reflections, whole-pixel shifts and growth of the radius carry over to every rounded quantity |
| C95 | same model, exact coverage of C31 as specification | relative and absolute errors of each operation, 1-Lipschitz distance, stability of the square root; the classification band has a margin of 0.7 pixels |
| C96 | gen_coords, gen_rectangle and gen_annulus in binary64 | coordinates and their squares are exact on a grid of 2^-t pixels; a rounded square root that ties with a grid radius belongs to an exact tie, because integers differ by at least one; error bounds of C95 elsewhere |
| C97 | trial grids of the searches in binary64 | rounding is monotone and fixes doubles: order, ends and the middle entry follow; relative error of each operation for accuracy; grids of 2^-t are exact; witnesses by evaluation |
| C98 | pad_crop and offcenter_crop on arrays of booleans, 64-bit integers, doubles or complex numbers; the fill value goes through a double and is converted | exactness of doubles up to 2^53 gives the fill; rounding error bound beyond; the padding of offcenter_crop in doubles is exact up to 2^50; witness 2^53+1 for the loss |
| C99 | combine and crop on typed frames, converted to doubles | conversion lemma per type; crop reduced to the untyped model; composition of the two |
| C100 | ellipse, rectangle, annular_segments and simple_pupil in binary64, operation by operation, over any C library | opposite operands give opposite results for every operation, overflow included; whole-pixel coordinates are exact; subpixels are counted backwards |
| C101 | same model, exact coverages of C33 and C35 as specification; accuracy of the C library is a hypothesis, met by a correctly rounding one | pi enclosed by Machin's series; errors of the angle, the cosine and the radius combine through x cos t + y sin t = rho cos(theta - t); the window leaves a margin of 0.4 pixels; products of numbers in [0, 1] add errors |
| C102 | BrightF.v: centre, balance and rms over binary64, numpy.sum an argument that adds in any order | relative error of a sum of non-negative numbers by induction on the way it was added; weights and coordinates through the error lemmas of C80 and C94; non-finite values by case analysis |
| C103 | PsfFitN.v: psffit with nan pixels (`None`); transforms spread a nan to every output, numpy.argmax takes the first nan | unfolding with all values nan; equality with the model of C45 on clean images |
| C104 | FocalFitF.v: both focal-mask measurements over Flocq binary64, with the double-precision circle of ShapesF.v; summation order, cos and sin quantified | interval bounds on every intermediate value exclude overflow; each rounded operation is monotone, so the composition is; root of a rounded square recovered exactly for the sign |
| C105 | NollF.v: xyzern and gen_zernikes over Flocq binary64, operation by operation; hypot, arctan2, cos, sin, gamma quantified with stated accuracy | coefficients: every product up to 22! checked exact by computation in the kernel, then gamma's exactness transports to any routine; value: standard error analysis of the sum, powers, norm and trigonometric factor; overflow: infinite factorials give nan or infinity through every later operation; witness for high order by vm_compute |
| C106 | MftF.v: the three transforms over Flocq binary64, operation by operation; numpy.exp and numpy.dot quantified with stated accuracy | relative error of the grids and phases, the Lipschitz constant of exp(it), then the textbook error of two matrix products and two scalings; round trip: C19 and the errors of both transforms; refusals by cases on the class of each sampling (number, infinity, nan); padding by running the model with routines that round correctly |
| C107 | FresnelF.v: get_fp, fresnelprop and fresnelprop_fp over Flocq binary64, operation by operation; squares, numpy.hypot, numpy.exp, fft2 and ifft2 quantified with stated accuracy | relative error of the phase as in C106; then Minkowski's inequality and Parseval for the root sum of squares of the error through transform, product, inverse transform and crop; the criterion by the relative error of the product, its failures at equality by running the model; refusals by cases on the class of the product; the way there and back by the isometry of the exact propagation and of the exact transforms |

## 4. Findings

Where the code, as modelled, departs from its documentation or from what a user would expect. The first column names the
theorem that exhibits it.

| theorem | where | what happens |
|---------|-------|--------------|
| C02_pad_crop_any_order_refuted | util/pad_crop.py `pad_crop` | the docstring's "any order" fails for every intermediate size smaller than both ends |
| C07_documented_contract_refuted | util/check.py | NaN passes the sign checks; ragged lists raise ValueError; a bytes name raises TypeError; string arrays pass `real_array` |
| C08_ceil_even_all_doubles_refuted | util/math.py `ceil_even` | the smallest positive double gives 0 |
| C88_peak_height_refuted | util/dmshapes.py `probe` | `height` is not the peak of the shape, which can exceed it |
| C12_auto_size_offset_refuted | util/nollzernikes.py `gen_zernikes` | the automatic array does not contain an offset beam; array size 1000000 is taken as "automatic" |
| C22_nonsymmetric_refuted | util/fit_surf_to_dm.py `build_prefilter` | the matrix is transposed: the fit inverts the point-reflected influence function |
| C27_nondegenerate_refuted | util/findopt.py `find_optimum_2d` | z = xy has a stationary point but raises QuadraticException |
| C28_documented_order_refuted | util/center.py `center_of_energy` | the centroid is returned as (column, row) |
| C29_plain_balance_refuted, C29_inside_origin_refuted, C29_zero_sum | util/quad.py `quadrant_energy_balance` | pixels on an axis are counted twice; x_origin is checked against the rows; a zero-sum image gives nan |
| C32_ellipse_coverage_refuted | util/shapes.py `ellipse` | the antialiasing window is measured at the array corner and can vanish |
| C34_rotation_360_refuted, C60_near_centre_refuted | util/shapes.py `annular_segments` | UnboundLocalError for rotations of 360 degrees or more; wrong coverage near the centre |
| C74_mean_chord_length | util/shapes.py `rect_proper` | the antialiasing is exact along the rows only |
| C36_always_boolean_refuted | buildmodel/darkhole.py | an empty list of shapes gives a float array |
| C38_presorted_refuted, C38_positive_differences_refuted | gainmap/gm_util.py | nearly sorted commands are accepted and give negative differences |
| C39_nonsquare_refuted, C40_nonsquare_refuted | gainmap/gainmap.py | shape tests compare rows with columns: every non-square map fails |
| C40_decreasing_refuted | gainmap/gainmap.py | with heights that decrease with the command the result is always the last command |
| C61_between_refuted | gainmap/gainmap.py | commands -> heights -> commands is not the identity between calibration commands |
| C49_on_image_refuted | pupil/util.py `coarsely_locate_pupil_offset` | candidates off the image are never skipped: the bounds tests are joined by `or` |
| C51_number_mask_unusable | util/unwrap.py `unwrap_segments` | an integer or float bMask with selem=None fails on every image |
| C52_documented_refuted | occastro/occastro.py | the returned offset is relative to the guess, which is not added back |
| C53_edge_refuted | maskgen/maskgen.py `rotate_shift_downsample` | a mask without a blank border leaks outside its own support |
| C90_unit_refuted | maskgen/maskgen.py `rotate_shift_downsample_amplitude_mask` | a complex mask is accepted and its imaginary part dropped without notice |
| C56_overshoot, C56_converges_refuted | dmreg/dmreg.py | clocking passes with a shrink factor below one overshoot |
| C71_clocking_refuted | dmreg/dmreg.py | the clocking cost compares surface with wavefront, without the factor two or the flattening |
| C57_float_trials_refuted | platesolv/platesolv.py | rounding in arange gives an extra trial outside the range; the upper end of the range is not searched |
| C72_misfit_refuted, C73_self_refuted | platesolv/platesolv.py `calc_scale` | rows and columns are exchanged, flipx is ignored; the solution is not self-consistent |
| C58_window_refuted | pupil/util.py | the quadratic refinement of the lateral offset may leave the search window |
| C65_flip_shift_refuted | conjugate/conjugate.py `conv_surf_to_dm_cmd` | a flipped DM with a sideways shift is sampled on the wrong side |
| C75_small_padding_loses_pupil | util/fit_shapes.py | pupil pixels near the padded edge are lost; a negative iteration count clears the mask |
| C79_any_map_refuted | pupil/pupilfit.py `fit_pupil_zernikes` | fails on every map that is not square |
| C93_refuted | maskgen/maskgen.py `gen_hlc_occulter` | rounding makes the internal magnification 1 + 2^-52 for valid settings, which are then refused as upsampling |
| C97_symmetric_refuted | occastro/occastro.py | five steps of 0.1 about zero are not symmetric, although odd numbers are recommended for symmetry |
| C97_zero_tried_refuted | pupil/util.py, dmreg/dmreg.py | 23 values from -0.1 to 0.1 do not include zero |
| C98_fill_refuted | util/pad_crop.py | an integer array padded with 2^53+1 is padded with 2^53: extrapval is multiplied by an array of doubles first |

Not theorems of their own, seen while modelling: `fit_unmasked_pupil` ignores flipxRef and rotRef when it fits the clocking;
`fit_lyot_stop_mag_clocking` does not compound magShrinkFac, compares `phPoked1` with `shape0`, and returns magnification 1
when the overlap is flat.
- C102: `quadrant_energy_balance` returns (0, 0), a perfectly centred source, for any image with an infinite pixel outside the radius
  (every other pixel divided by the infinite total is 0), and for a nan radius, which `check.real_nonnegative_scalar` accepts.
- C103: one nan pixel in either image and `psffit` returns the shift (0.75, 0.75) with the delivered configuration, whatever the
  images: every value of the correlation is nan, `numpy.argmax` takes the first, and the corner of the fine grid is reported.
- C43: `flatten` checks that the command maps are square but not that they have the size of the DM. A 1 x 1 map is expanded by
  numpy to a full map of the same value (`C43_new_command`); every other wrong size is refused by the subtraction with ValueError.
- C89: with exactly two calibration commands there is one slope and `compute_gainmap` returns a map of nan (`C89_two_commands`:
  interp1d extrapolates along a line through one point, 0/0); with one command it ends in IndexError (`C89_one_command`), and with
  none in ValueError, from allocating an array of length -1.
- C104: `calc_offset_from_spots` raises a sum that is not positive to 2^-52, but keeps a positive sum below that. In an image that
  is not in counts, raising a pixel from 0 to 2^-60 therefore moves the estimate the wrong way (`C104_dim_light`). The monotonicity
  theorems assume that a lit pixel holds at least one count.
- C104: the positivity checks let nan through. A tuning file whose largest step is `.nan` is accepted, and both comparisons of
  `bound_value` are then False: the offset is not limited at all (`C104_nan_limit_spots`, `C104_nan_limit_bowtie`).
- C105: `xyzern` sums the radial polynomial term by term with alternating coefficients. Up to radial order 22 the coefficients are
  exact integers and the value is accurate (`C105_accuracy_partial`). Beyond, cancellation takes over: mode 1276, of orders (50, 0),
  evaluates to about 347 at the rim, where the true value is 7.14 (`C105_high_order_refuted`). From radial order 171 on, index 14707,
  the factorials overflow and no pixel is a number; `gen_zernikes` then returns an array of nan even when that coefficient is zero
  (`C105_overflow`, `C105_overflow_sum`). Nothing in the code or its documentation limits the index.
- C106: the matrix Fourier transforms compute the pixel size as N / pixperpupil / N, not as 1 / pixperpupil. The two roundings
  depend on N, so a border of zeros about the pupil changes the last bits of the image, even where every phase is zero
  (`C106_padding_exact_refuted`: five pixels per pupil, one lit pixel alone or in a 3 x 3 array). The error bounds hold either way.
  A nan sampling passes both checks and fills the output; an infinite one is refused, but only because the width of the grid it
  gives is zero (`C106_mft_refused`).
- C107: `get_fp` and `fresnelprop` compare the number of points with the rounded product lam*|z|*pixpermeter**2. At equality the
  comparison goes wrong both ways: 255 points, enough for 510 nm over 1.25 m at 20000 pixels per metre, are refused because the
  product rounds to 255.00000000000003 (`C107_enough_refuted`), and 220 points are accepted for the double 5.5e-07 over 1 m although
  the exact product exceeds 220 (`C107_too_few_refuted`). nan arguments pass the positivity checks and end in ValueError from
  `int(nan)`; infinities and a sampling whose square overflows end in OverflowError, which the documentation does not mention.
