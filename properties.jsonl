{"id": "C01", "title": "pad_crop keeps the centre pixel and copies every overlapping pixel", "statement": "pad_crop(arr0, outsize, extrapval) always returns an array of shape outsize; output pixel (i,j) equals the input pixel at the same offset from the centre pixel (size//2 on each axis) when that pixel exists, and extrapval cast to the input dtype otherwise. It never fails on a non-empty 2-D input and positive sizes.", "quantifier": "every input shape, every positive output shape (both parities on each axis), every element value and fill value", "why_tests_cant": "four parity combinations per axis times arbitrary sizes; an off-by-one only shows for one parity pair", "anchors": [{"file": "coralign/util/pad_crop.py", "symbols": ["pad_crop"]}]}
{"id": "C02", "title": "pad_crop calls chain", "statement": "Padding then cropping back returns the original array; chaining pad_crop through an intermediate size gives the same result as one direct call whenever no axis of the intermediate is smaller than both end sizes; the unrestricted docstring claim ('any order') is false when an intermediate crops.", "quantifier": "every array and every triple of sizes", "why_tests_cant": "quantifies over all triples of shapes and parities", "anchors": [{"file": "coralign/util/pad_crop.py", "symbols": ["pad_crop"]}]}
{"id": "C03", "title": "offcenter_crop is an exact window with zeros outside", "statement": "offcenter_crop(arr, xc, yc, nx, ny) returns an array of exactly the requested size whose pixel (i,j) is the input pixel (round(yc)-ny//2+i, round(xc)-nx//2+j) when that lies inside the input and 0 otherwise, for windows partially or entirely off the input as well, and never raises for valid arguments.", "quantifier": "every image shape, real-valued window centre (positive, negative, far outside) and window size", "why_tests_cant": "padding arithmetic has separate branches on each of four sides and each parity", "anchors": [{"file": "coralign/util/pad_crop.py", "symbols": ["offcenter_crop"]}]}
{"id": "C04", "title": "crop is an exact window with NaN outside", "statement": "crop(frame, lr, lc, rw, cw) has shape (rw, cw); pixel (i,j) equals frame[lr+i, lc+j] if that is inside the frame and NaN otherwise; two successive crops equal the single crop at the summed corner on all pixels the first one kept.", "quantifier": "every frame shape, corner and window, including windows fully outside the frame", "why_tests_cant": "all relative positions of the window and the frame", "anchors": [{"file": "coralign/util/combine_crop.py", "symbols": ["crop"]}]}
{"id": "C05", "title": "combine marks exactly the bad pixels", "statement": "combine(frame, bp) returns a frame of the same shape that is NaN exactly where bp is set (or where the frame already was NaN) and equal to the input elsewhere; wrong shapes raise TypeError; combining twice with maps bp1, bp2 equals combining once with their union.", "quantifier": "every frame and every bad-pixel map", "why_tests_cant": "all 2^(pixels) maps", "anchors": [{"file": "coralign/util/combine_crop.py", "symbols": ["combine"]}]}
{"id": "C06", "title": "get_crop_lower obeys the centre convention", "statement": "get_crop_lower(rc, cc, rw, cw) returns the corner for which crop puts frame pixel (rc,cc) at output index (rw//2, cw//2); with bound=True the corner is never negative and equals the unbounded one whenever that is non-negative; invalid arguments raise TypeError only.", "quantifier": "every integer centre, positive widths, both settings of bound", "why_tests_cant": "parity of widths and sign of corner", "anchors": [{"file": "coralign/util/get_crop_lower.py", "symbols": ["get_crop_lower"]}, {"file": "coralign/util/combine_crop.py", "symbols": ["crop"]}]}
{"id": "C07", "title": "Argument checkers accept exactly the documented values", "statement": "Each check.* function returns its argument unchanged when it satisfies the documented predicate and otherwise raises the caller's exception class; no other outcome is possible for a valid vname/vexc.", "quantifier": "every Python value of the modelled universe (None, bool, int, float incl. nan/inf, complex, numpy scalars, str, bytes, list, dict, ndarray of any dtype and rank), every name and exception class", "why_tests_cant": "the value universe is infinite and the interesting cases (nan, bool, numpy scalars, bytes names) are exactly the ones tests omit", "anchors": [{"file": "coralign/util/check.py", "symbols": ["real_positive_scalar", "real_nonnegative_scalar", "real_scalar", "positive_scalar_integer", "nonnegative_scalar_integer", "scalar_integer", "real_array", "oneD_array", "twoD_array", "twoD_square_array", "threeD_array", "string", "boolean", "dictionary"]}]}
{"id": "C08", "title": "ceil_even and ceil_odd return the least even/odd integer not below the input", "statement": "ceil_even(x) is even, >= x and < x+2; ceil_odd(x) is odd, >= x and < x+2; both are monotone and idempotent. In binary64 the same holds for every finite input outside the subnormal corner.", "quantifier": "every real x; every finite binary64 x", "why_tests_cant": "continuum of inputs; boundary at every integer; rounding of the intermediate products", "anchors": [{"file": "coralign/util/math.py", "symbols": ["ceil_even", "ceil_odd"]}]}
{"id": "C09", "title": "cart2pol and rms", "statement": "cart2pol returns (rho, phi) with rho >= 0, -pi < phi <= pi, rho cos phi = x, rho sin phi = y; rms(a) is non-negative, homogeneous, zero only for the zero array, and at most max|a|.", "quantifier": "every (x,y); every nonempty array", "why_tests_cant": "continuum of inputs; quadrant boundaries", "anchors": [{"file": "coralign/util/math.py", "symbols": ["cart2pol", "rms"]}]}
{"id": "C10", "title": "Noll index decoding is the standard bijection", "statement": "For every Noll index j >= 1 the (n,m) used by xyzern/gen_zernikes satisfies 0<=m<=n, n-m even, and n(n+1)/2 < j <= (n+1)(n+2)/2; each (n,0) is hit by exactly one j and each (n,m>0) by exactly two consecutive indices, the even one selecting cosine and the odd one sine. The binary64 evaluation of the square-root formula gives the same n.", "quantifier": "every j >= 1 (unbounded); for the float evaluation every j up to 2^48", "why_tests_cant": "closed-form index arithmetic with a float square root; error would show at triangular numbers only", "anchors": [{"file": "coralign/util/nollzernikes.py", "symbols": ["xyzern", "gen_zernikes"]}]}
{"id": "C11", "title": "Zernike radial polynomials have the textbook coefficients", "statement": "The coefficient recurrences yield (-1)^k (n-k)! / (k! ((n+m)/2-k)! ((n-m)/2-k)!) for every term, and the radial polynomial equals 1 at the unit circle.", "quantifier": "every valid (n,m)", "why_tests_cant": "recurrence over unbounded orders", "anchors": [{"file": "coralign/util/nollzernikes.py", "symbols": ["xyzern"]}]}
{"id": "C12", "title": "gen_zernikes is linear and order-independent", "statement": "gen_zernikes(indices, coefs) is linear in coefs, additive under concatenation of index lists, invariant under permuting (index, coef) pairs; the auto-selected array contains the beam.", "quantifier": "every index list, coefficient list and array size", "why_tests_cant": "all lists and permutations", "anchors": [{"file": "coralign/util/nollzernikes.py", "symbols": ["gen_zernikes"]}]}
{"id": "C13", "title": "fit_zernikes recovers an exact Zernike wavefront", "statement": "On a wavefront that is an exact combination of the first N Zernikes on the mask, fit_zernikes returns the coefficients whenever the masked Zernikes are linearly independent; the residual is orthogonal to every fitted mode.", "quantifier": "every mask, coefficient vector and N", "why_tests_cant": "all masks and coefficient values", "anchors": [{"file": "coralign/util/nollzernikes.py", "symbols": ["fit_zernikes"]}]}
{"id": "C14", "title": "do_fft and do_ifft are mutually inverse", "statement": "do_ifft(do_fft(e)) = e = do_fft(do_ifft(e)) for every complex array of every shape (odd or even), in exact arithmetic; do_fft puts the array sum at the centre pixel n//2.", "quantifier": "every shape and every complex field", "why_tests_cant": "parity of shift conventions; all sizes", "anchors": [{"file": "coralign/util/fresnelprop.py", "symbols": ["do_fft", "do_ifft"]}]}
{"id": "C15", "title": "Fresnel propagation composes and inverts", "statement": "Propagating by z=0 is the identity; by z then -z returns the field, by z1 then z2 equals z1+z2 when no padding or cropping occurs and sampling checks pass.", "quantifier": "every field, wavelength, sampling and distance", "why_tests_cant": "continuum of parameters", "anchors": [{"file": "coralign/util/fresnelprop.py", "symbols": ["fresnelprop", "get_fp", "fresnelprop_fp"]}]}
{"id": "C16", "title": "Fresnel propagation conserves energy", "statement": "The sum of |E|^2 is unchanged by propagation on a grid at least as large as the field before the final crop, and the returned field never has more energy than the input.", "quantifier": "every field, grid size and distance", "why_tests_cant": "continuum of inputs and all sizes", "anchors": [{"file": "coralign/util/fresnelprop.py", "symbols": ["fresnelprop"]}]}
{"id": "C17", "title": "fresnelprop equals get_fp followed by fresnelprop_fp", "statement": "Whenever both paths accept their arguments they return the same field, and fresnelprop is linear in the field.", "quantifier": "every field and parameter set", "why_tests_cant": "two code paths with different checks", "anchors": [{"file": "coralign/util/fresnelprop.py", "symbols": ["fresnelprop", "get_fp", "fresnelprop_fp"]}]}
{"id": "C18", "title": "Off-centre MFT equals MFT of the embedded field", "statement": "do_offcenter_mft(e, ..., pupilShape, lower-left) equals do_mft of the pupilShape array that is zero except for e at that location, whenever e fits; do_mft is linear and shift of the pupil multiplies the image by a pure phase.", "quantifier": "every field, embedding, output shape and sampling", "why_tests_cant": "all placements and parities", "anchors": [{"file": "coralign/util/mft.py", "symbols": ["do_mft", "do_offcenter_mft"]}]}
{"id": "C19", "title": "do_imft inverts do_mft at critical sampling", "statement": "With an NxN focal array where N = pixperlod*pixperpupil and N >= both field dimensions, do_imft(do_mft(e)) = e.", "quantifier": "every N, every field shape up to N", "why_tests_cant": "all sizes and parities", "anchors": [{"file": "coralign/util/mft.py", "symbols": ["do_mft", "do_imft"]}]}
{"id": "C20", "title": "Height/voltage conversions are mutually inverse", "statement": "volts_to_dmh(gain, dmh_to_volts(gain, h)) = h and vice versa for non-zero gains; shape mismatch raises.", "quantifier": "every gain map and height map", "why_tests_cant": "all arrays", "anchors": [{"file": "coralign/util/dmhtoph.py", "symbols": ["dmh_to_volts", "volts_to_dmh"]}]}
{"id": "C21", "title": "dmhtoph places actuators and is linear", "statement": "The poke array holds dmin[i,j] at the pixel of actuator (i,j) and zero elsewhere; on the design grid the surface is the sum over actuators of height times the influence function centred on the actuator; the output has the requested shape; zero heights give a zero surface.", "quantifier": "every DM size, heights and odd influence function", "why_tests_cant": "all sizes and command vectors", "anchors": [{"file": "coralign/util/dmhtoph.py", "symbols": ["dmhtoph"]}]}
{"id": "C22", "title": "fit_surf_to_dm inverts the forward DM model", "statement": "Applying the DM's influence-function convolution to the fitted command reproduces the requested surface.", "quantifier": "every surface, every (also non-symmetric) influence function with invertible response", "why_tests_cant": "tests only use symmetric influence functions", "anchors": [{"file": "coralign/util/fit_surf_to_dm.py", "symbols": ["fit_surf_to_dm", "build_prefilter"]}]}
{"id": "C23", "title": "grid pokes exactly the requested lattice", "statement": "dmshapes.grid gives the poke height at actuators with row = yoffset mod yspace and column = xoffset mod xspace and zero elsewhere; the lattices over all offsets partition the DM.", "quantifier": "every DM size, spacing, offset and poke", "why_tests_cant": "all sizes and offsets", "anchors": [{"file": "coralign/util/dmshapes.py", "symbols": ["grid"]}]}
{"id": "C24", "title": "sine and probe commands are bounded and flip sign with phase", "statement": "|sine| <= |amplitude|; adding 180 degrees of phase negates sine and probe commands; probe amplitude is bounded by its stated height formula.", "quantifier": "every parameter set and DM size", "why_tests_cant": "continuum of parameters", "anchors": [{"file": "coralign/util/dmshapes.py", "symbols": ["sine", "probe"]}]}
{"id": "C25", "title": "ampthresh separates bright from dark", "statement": "When ampthresh returns, the mask has the input's shape, is an upper set of the amplitude, contains every maximal pixel, excludes every minimal one, and is invariant under positive affine rescaling; it raises when there are fewer than three bins or no interior local minimum.", "quantifier": "every amplitude map and bin count", "why_tests_cant": "all images; histogram edge cases", "anchors": [{"file": "coralign/util/ampthresh.py", "symbols": ["ampthresh"]}]}
{"id": "C26", "title": "find_optimum_1d finds the vertex of exact parabolas", "statement": "For samples of a x^2+b x+c at three or more distinct points with |a| not below the threshold, the result is -b/(2a); flat data raises QuadraticException.", "quantifier": "every parabola and sample set", "why_tests_cant": "continuum", "anchors": [{"file": "coralign/util/findopt.py", "symbols": ["find_optimum_1d"]}]}
{"id": "C27", "title": "find_optimum_2d finds the stationary point of exact paraboloids", "statement": "For samples of a non-degenerate quadratic surface on a unisolvent masked set the result is the unique stationary point.", "quantifier": "every quadratic surface, mask and grid", "why_tests_cant": "continuum; degenerate branches", "anchors": [{"file": "coralign/util/findopt.py", "symbols": ["find_optimum_2d"]}]}
{"id": "C28", "title": "center_of_energy is the centroid", "statement": "For non-negative images with positive energy the result lies inside the image, is invariant under positive scaling, exact for a point source, and moves with the image under translation.", "quantifier": "every image", "why_tests_cant": "all images", "anchors": [{"file": "coralign/util/center.py", "symbols": ["center_of_energy"]}]}
{"id": "C29", "title": "quadrant_energy_balance measures signed imbalance", "statement": "The returned numbers are the normalised right-minus-left and top-minus-bottom energies in the mask radius about the origin; mirroring negates the matching number; every origin inside the image is accepted.", "quantifier": "every image (square or not), origin and radius", "why_tests_cant": "non-square images and axis pixels", "anchors": [{"file": "coralign/util/quad.py", "symbols": ["quadrant_energy_balance"]}]}
{"id": "C30", "title": "remove_piston_tip_tilt is the projection orthogonal to planes", "statement": "The output is zero off the mask, zero everywhere for a plane, unchanged by adding any plane to the input, idempotent, and orthogonal to piston, tip and tilt on the mask.", "quantifier": "every array and mask (any rank of the fit)", "why_tests_cant": "all masks including degenerate ones", "anchors": [{"file": "coralign/dmreg/dr_util.py", "symbols": ["remove_piston_tip_tilt"]}]}
{"id": "C31", "title": "circle is the supersampled disc everywhere", "statement": "Every pixel of circle() equals the fraction of its subpixel centres inside the disc (so 1 well inside, 0 well outside, in [0,1]); isDark gives the complement; growing the radius never lowers a pixel.", "quantifier": "every array size, radius, offset and subpixel count", "why_tests_cant": "continuum; the soundness of the edge-window shortcut", "anchors": [{"file": "coralign/util/shapes.py", "symbols": ["circle"]}]}
{"id": "C32", "title": "ellipse is the supersampled ellipse", "statement": "Every pixel of ellipse() equals the fraction of its subpixel centres inside the ellipse.", "quantifier": "every size, axes, rotation and offset", "why_tests_cant": "continuum; window width heuristic", "anchors": [{"file": "coralign/util/shapes.py", "symbols": ["ellipse"]}]}
{"id": "C33", "title": "rectangle is the supersampled rotated rectangle", "statement": "Every pixel of rectangle() equals the fraction of its subpixel centres inside the rotated rectangle.", "quantifier": "every size, widths, rotation and offset", "why_tests_cant": "continuum", "anchors": [{"file": "coralign/util/shapes.py", "symbols": ["rectangle"]}]}
{"id": "C34", "title": "annular_segments yields a transmission map", "statement": "For valid arguments the result is an array of values in [0,1] and the call does not fail.", "quantifier": "every valid parameter set", "why_tests_cant": "continuum; angle branches", "anchors": [{"file": "coralign/util/shapes.py", "symbols": ["annular_segments"]}]}
{"id": "C35", "title": "simple_pupil is a transmission and does not depend on strut order", "statement": "Values lie in [0,1]; permuting the struts does not change the pupil; adding a strut never brightens a pixel.", "quantifier": "every parameter set and strut list", "why_tests_cant": "all lists", "anchors": [{"file": "coralign/util/shapes.py", "symbols": ["simple_pupil"]}]}
{"id": "C36", "title": "The dark hole is the union of its shapes", "statement": "A pixel is in the mask from gen_dark_hole_from_yaml iff it is in at least one of the listed shapes; the order of shapes is irrelevant; the mask is boolean.", "quantifier": "every list of shapes and array size", "why_tests_cant": "all lists", "anchors": [{"file": "coralign/buildmodel/darkhole.py", "symbols": ["gen_dark_hole_from_yaml"]}]}
{"id": "C37", "title": "Dark-hole shapes have the stated geometry", "statement": "Annulus, sector, bowtie and rectangle contain exactly the pixels whose centre coordinates (relative to pixel n//2) satisfy the documented inequalities; bowties are point symmetric; a sector opening of 360 or more is the whole annulus.", "quantifier": "every pixel, radius, clocking, opening angle and offset", "why_tests_cant": "continuum", "anchors": [{"file": "coralign/buildmodel/darkhole.py", "symbols": ["gen_rectangle", "gen_annulus", "gen_annular_sector", "gen_bowtie"]}]}
{"id": "C38", "title": "Gain-map vector validation", "statement": "verify_vector_is_presorted accepts exactly the ascending vectors, verify_vector_has_unique_values exactly the duplicate-free ones; consequently all difference intervals are positive.", "quantifier": "every vector", "why_tests_cant": "tolerance semantics of allclose", "anchors": [{"file": "coralign/gainmap/gm_util.py", "symbols": ["verify_vector_is_presorted", "compute_diff_and_mean_of_vector"]}]}
{"id": "C39", "title": "Gains are exact for quadratic actuators and any DM shape", "statement": "If each actuator's height is a quadratic function of command, compute_gainmap returns its derivative at the current command for every actuator, for square and non-square DMs.", "quantifier": "every command map, cube and shape", "why_tests_cant": "all shapes; tests use square ones", "anchors": [{"file": "coralign/gainmap/gainmap.py", "symbols": ["compute_gainmap"]}, {"file": "coralign/gainmap/gm_util.py", "symbols": ["compute_gain_cube_from_height_cube"]}]}
{"id": "C40", "title": "Starting commands stay within calibrated range", "statement": "Each commanded height is clamped to the calibrated range of its actuator and calibration points map back to their command.", "quantifier": "every height map and cube", "why_tests_cant": "all maps", "anchors": [{"file": "coralign/gainmap/gainmap.py", "symbols": ["compute_starting_commands_for_flight"]}]}
{"id": "C41", "title": "Focal-mask offset estimators invert their models", "statement": "bound_value clamps to [-max,max]; for positive coefficients the linear/quadratic offset d satisfies ratio = 1 + c1 d (+ c2 d^2) for ratio >= 1, is antisymmetric under ratio -> 1/ratio, strictly increasing in ratio and 0 exactly at 1.", "quantifier": "every positive ratio and coefficients", "why_tests_cant": "continuum", "anchors": [{"file": "coralign/focalfit/ff_util.py", "symbols": ["bound_value", "calc_offset_linear", "calc_offset_quadratic"]}]}
{"id": "C42", "title": "Focal-mask correction is bounded and vanishes on target", "statement": "calc_offset_from_spots returns a value of magnitude at most maxStep, 0 when the measured ratio equals the target, with sign given by which spot is brighter and by the mask side.", "quantifier": "every image and parameter set", "why_tests_cant": "all images", "anchors": [{"file": "coralign/focalfit/focalfit.py", "symbols": ["calc_offset_from_spots"]}]}
{"id": "C43", "title": "Dead actuators: error is reassigned and never commanded", "statement": "In flatten, dead actuators receive exactly zero height change, and at every actuator not dead on both DMs the sum of the two DM heights is unchanged by the reassignment.", "quantifier": "every pair of dead-actuator masks and height maps", "why_tests_cant": "all masks", "anchors": [{"file": "coralign/conjugate/conjugate.py", "symbols": ["flatten"]}]}
{"id": "C44", "title": "Wavefront split between DMs is complete and balanced", "statement": "The low/focus/high Zernike parts sum to the truncated Zernike wavefront; DM1 and DM2 phases sum to the wavefront to be corrected; when the low-order rms exceeds the high-order rms there is exactly one split fraction equalising the two DM rms values and it lies in [0,1].", "quantifier": "every wavefront, coefficient set and flag", "why_tests_cant": "continuum", "anchors": [{"file": "coralign/conjugate/conjugate.py", "symbols": ["gen_split_wfe", "flatten", "phase_cost_function"]}]}
{"id": "C45", "title": "psffit recovers circular shifts", "statement": "psffit returns minus the lag of the first peak of the cross-correlation (of its trigonometric interpolation, with upsampling). For a target that is a scaled circular shift of the source the returned whole-pixel shift, in [-n/2, n/2), maps the source onto the target; for a source that varies along both axes it is that shift exactly for every whole upsampling factor, and fractional shifts on the refined grid are returned exactly.", "quantifier": "every image, shift, scale and upsampling configuration", "why_tests_cant": "continuum of images and shifts", "anchors": [{"file": "coralign/psffit/psffit.py", "symbols": ["psffit", "compute_upsampled_dft"]}]}
{"id": "C46", "title": "psffit amplitude scaling is least-squares optimal", "statement": "The returned scale factor minimises the summed squared residual and recovers the exact factor for proportional images.", "quantifier": "every pair of images", "why_tests_cant": "continuum", "anchors": [{"file": "coralign/psffit/psffit.py", "symbols": ["psffit"]}]}
{"id": "C47", "title": "Lossless thin films conserve energy", "statement": "For real positive refractive indices the solver returns finite outputs whose reflectance and transmittance are the squared moduli of the returned amplitudes and sum to 1, for both polarisations; beyond the critical angle of the last medium R = 1 and T = 0. The only exception is a film in which light travels exactly parallel to the boundaries, where every output is NaN.", "quantifier": "every stack length, index, thickness, angle in [0, pi/2), wavelength", "why_tests_cant": "unbounded stacks and continuum", "anchors": [{"file": "coralign/maskgen/util/thinfilm.py", "symbols": ["solver"]}]}
{"id": "C48", "title": "Thin-film solver does not see artificial layer boundaries", "statement": "Inserting a zero-thickness film of any complex index anywhere, or splitting a film into two of the same index, changes no output.", "quantifier": "every stack, position and split", "why_tests_cant": "unbounded stacks", "anchors": [{"file": "coralign/maskgen/util/thinfilm.py", "symbols": ["solver"]}]}
{"id": "C49", "title": "Coarse pupil search terminates at a grid maximum", "statement": "coarsely_locate_pupil_offset terminates for every shrink factor above 1, in exact and in binary64 arithmetic, within as many passes as its first step size; each pass returns the first offset of maximal flux on its search grid; a uniform disc on the grid is found exactly; arguments out of range raise TypeError. The result is not confined to the image.", "quantifier": "every image, beam diameter, radius, step and shrink factor", "why_tests_cant": "termination over all factors close to 1", "anchors": [{"file": "coralign/pupil/util.py", "symbols": ["coarsely_locate_pupil_offset", "coarsely_locate_pupil_offset_once"]}]}
{"id": "C50", "title": "compute_norm_factor is a percentile of the masked values", "statement": "The factor lies between the smallest and largest masked value, scales with the image, and is monotone in the percentile.", "quantifier": "every image, mask and percentile", "why_tests_cant": "all images", "anchors": [{"file": "coralign/pupil/util.py", "symbols": ["compute_norm_factor"]}]}
{"id": "C51", "title": "unwrap writes fill_value outside the mask and whole turns inside it", "statement": "unwrap and unwrap_segments return fill_value at every pixel outside the used (eroded) mask and a phase congruent to the input modulo 2 pi inside it; a field with neighbour steps below pi is recovered up to one number of turns per connected region, and by unwrap_segments up to one number of turns for all regions when its nearest-neighbour extension has no step of pi.", "quantifier": "every phase, amplitude, mask and structuring element", "why_tests_cant": "all masks and fields", "anchors": [{"file": "coralign/util/unwrap.py", "symbols": ["unwrap", "unwrap_segments"]}]}
{"id": "C52", "title": "occastro returns the star position relative to the documented reference", "statement": "The returned offset is measured from the array's centre pixel as documented.", "quantifier": "every image and starting guess", "why_tests_cant": "non-zero guesses", "anchors": [{"file": "coralign/occastro/occastro.py", "symbols": ["calc_star_location_from_spots"]}]}
{"id": "C53", "title": "rotate_shift_downsample_amplitude_mask has stable geometry", "statement": "The output is square, even sized with an empty first row and column; each pixel samples the padded, flipped, disc-averaged, rotated mask at the shifted and scaled position; downsampling by a whole factor gives disc means; at unit magnification without rotation the mask is reproduced, centred and shifted, provided the padded border is blank (otherwise border values are repeated outward).", "quantifier": "every mask shape and content, magnification, shift, padding factor, flip, and every interpolating spline", "why_tests_cant": "parity of all intermediate sizes and every shape", "anchors": [{"file": "coralign/maskgen/maskgen.py", "symbols": ["rotate_shift_downsample_amplitude_mask"]}]}
{"id": "C54", "title": "loadyaml reports every read or parse failure with the caller's exception", "statement": "Missing files, undecodable files and YAML errors raise custom_exception and nothing else is swallowed.", "quantifier": "every outcome of opening and parsing", "why_tests_cant": "failure points", "anchors": [{"file": "coralign/util/loadyaml.py", "symbols": ["loadyaml"]}]}
{"id": "C55", "title": "DM registration software mask is a sound erosion", "statement": "A pixel is usable only if it is inside the amplitude mask, and every pixel within the erosion distance is too.", "quantifier": "every amplitude and phase map and erosion width", "why_tests_cant": "all maps", "anchors": [{"file": "coralign/dmreg/dmreg.py", "symbols": ["calc_software_mask"]}]}
{"id": "C56", "title": "DM clocking iteration converges on quadratic costs", "statement": "The registration search runs the configured rounds of translation and clocking passes from the given start. For a quadratic cost each pass ought to move the estimate to the optimum. This holds for translation and for a first or unshrunk clocking pass; a clocking pass with trial spacing shrunk by s overshoots by 1/s.", "quantifier": "every iteration count, shrink factor and start", "why_tests_cant": "the scaling error depends on the pass number and on the distance from the optimum", "anchors": [{"file": "coralign/dmreg/dmreg.py", "symbols": ["calc_translation_clocking"]}]}
{"id": "C57", "title": "platesolv searches a grid around the guess and returns residual minimisers", "statement": "With relative half-width w and n trials, platesolv attempts exactly n scales, all in [guess(1-w), guess(1+w)); the residual of a trial is the spread of the difference between the percentile-matched rescaled guess image and the recorded image over the guess maximum; the values returned are exactly the fine-grid points where the interpolated residual is least; brightening either image changes neither trials nor result; an input is refused exactly when a requirement on it fails, and the first one to fail (file, mapping, images, guess, settings, trials, ...) decides the exception.", "quantifier": "every image pair, guess, settings file and interpolating spline", "why_tests_cant": "continuum of guesses and images; the tests use one simulated PSF and never count the trials", "anchors": [{"file": "coralign/platesolv/platesolv.py", "symbols": ["platesolv"]}]}
{"id": "C58", "title": "Pupil clocking and lateral offsets", "statement": "Trial angles and shifts are symmetric about their centre; the estimates are those of the documented least-squares fits on the overlap counts and on the spectral misfit; a clocking seen as a linear fall-off of the counts, and a whole-pixel shift on the trial grid, are recovered exactly; the estimated offsets stay inside the searched window.", "quantifier": "every image and parameter set", "why_tests_cant": "all iterations", "anchors": [{"file": "coralign/pupil/util.py", "symbols": ["compute_lateral_offsets", "compute_clocking"]}]}
{"id": "C59", "title": "dmshapes.zernike is the Noll mode on the actuator grid", "statement": "dmshapes.zernike(nact, dact, zernsize, order) equals zernsize times the textbook Noll mode evaluated about the centre of the actuator grid with unit disk of diameter dact actuators.", "quantifier": "every DM size, pupil diameter, amplitude and Noll index", "why_tests_cant": "must hold for every order and actuator; tests compare with the same routine", "anchors": [{"file": "coralign/util/dmshapes.py", "symbols": ["zernike"]}]}
{"id": "C60", "title": "annular_segments is the supersampled sector", "statement": "Every pixel of annular_segments equals the fraction of its subpixel centres inside the annular sector (or the sector and its opposite for nSeg = 2).", "quantifier": "all radii, offsets, opening angles, rotations below 360, array sizes, subpixel counts and angular paddings", "why_tests_cant": "Whether the angular padding covers every subpixel of a pixel depends on a continuous relation between pixel distance and padding; tests sample a few shapes.", "anchors": [{"file": "coralign/util/shapes.py", "symbols": ["annular_segments"]}]}
{"id": "C61", "title": "Height differences transfer a DM setting", "statement": "The delta height map between two command maps is, at every actuator, the difference of their calibrated heights; applying it to the same flat map as a starting point for flight returns the second command map when the commands are calibration commands.", "quantifier": "every pair of command maps in range, every ascending calibration and every cube of increasing heights", "why_tests_cant": "round trip over all maps, calibrations and interpolators", "anchors": [{"file": "coralign/gainmap/gm_util.py", "symbols": ["compute_delta_height_map"]}, {"file": "coralign/gainmap/gainmap.py", "symbols": ["compute_starting_commands_for_flight"]}]}
{"id": "C62", "title": "Bowtie offsets are bounded and vanish on target", "statement": "For a valid tuning file, calc_bowtie_offsets_from_spots sums the four spots placed at +/-spotRotDeg about the clocked axis and opposite to them, inverts the quadratic response of the right/left and up/down ratios relative to the target ratios, and returns offsets of magnitude at most maxStep that are zero exactly on target and negative exactly when the right (up) side is brighter than the target.", "quantifier": "every image, star offset and tuning file", "why_tests_cant": "all images and parameters", "anchors": [{"file": "coralign/focalfit/focalfit.py", "symbols": ["calc_bowtie_offsets_from_spots"]}]}
{"id": "C63", "title": "flatten moves only what its flags allow", "statement": "With flagUseDMs False flatten returns both DM commands unchanged; with flagUseFCM False it returns the FCM command unchanged; with flagUseFCM True the FCM command moves by the fitted Z4 in metres divided by the focus per stroke and the stroke per step, rounded to the nearest integer, and a zero conversion factor is an error.", "quantifier": "every flag setting, pupil map, DM configuration and tuning file", "why_tests_cant": "all maps and configurations; the DM path runs through smoothing, interpolation and a linear solve", "anchors": [{"file": "coralign/conjugate/conjugate.py", "symbols": ["flatten", "conv_surf_to_dm_cmd"]}]}
{"id": "C64", "title": "Desired DM surfaces are half the phase and never overshoot", "statement": "flatten asks of each DM a surface that equals half the DM's share of the phase on every illuminated pixel; outside the illuminated pixels the surface stays within the range of the illuminated values (extended to zero when smoothing), whatever the number of smoothing iterations.", "quantifier": "every phase map, illumination, smoothing kernel that averages, and iteration count", "why_tests_cant": "all maps and iteration counts", "anchors": [{"file": "coralign/conjugate/conjugate.py", "symbols": ["flatten", "smooth_surface"]}]}
{"id": "C65", "title": "Surface to DM command conversion samples the surface at the actuators and inverts dmhtoph", "statement": "The command map returned by conv_surf_to_dm_cmd makes the DM model pass through the given surface at every actuator centre; a zero surface gives a zero command; converting the surface that dmhtoph produces for a command map returns that command map.", "quantifier": "every surface, command map, influence function with solvable prefilter and DM registration", "why_tests_cant": "linear solve over all commands and registrations", "anchors": [{"file": "coralign/conjugate/conjugate.py", "symbols": ["conv_surf_to_dm_cmd"]}, {"file": "coralign/util/dmhtoph.py", "symbols": ["dmhtoph"]}]}
{"id": "C66", "title": "Occulter coefficients are passive", "statement": "For media that do not amplify, R + T <= 1; with the shipped material tables calc_complex_occulter returns, for wavelengths from 0.2 to 4 um, one finite transmission and one finite reflection coefficient per pixel with |t|^2+|r|^2 <= 1 for each polarisation setting and their mean; the phase-convention flag only conjugates; all other inputs (including substrate BK7) raise ValueError.", "quantifier": "every passive stack; every angle, thickness vector, polarisation, convention and wavelength in range", "why_tests_cant": "continuum of stacks", "anchors": [{"file": "coralign/maskgen/util/thinfilm.py", "symbols": ["calc_complex_occulter", "solver"]}]}
{"id": "C67", "title": "The thin-film solver computes the physical coefficients", "statement": "The returned amplitudes equal those of the Airy recursion over Fresnel coefficients with Snell refraction, for every passive stack whose last medium transmits; each occulter pixel is the stack vacuum/PMGI/Ni/Ti/fused silica of its own thicknesses, pol 0 TE, pol 1 TM, pol 2 the mean.", "quantifier": "every stack, angle, wavelength, polarisation, pixel", "why_tests_cant": "unbounded stacks and continuum", "anchors": [{"file": "coralign/maskgen/util/thinfilm.py", "symbols": ["calc_complex_occulter", "solver"]}]}
{"id": "C68", "title": "Reflection phase beyond the critical angle", "statement": "Beyond the critical angle the TE reflection amplitude off a transparent last medium has negative imaginary part, while any positive absorption, however weak, makes it positive: the phase does not depend continuously on absorption.", "quantifier": "every pair of indices, angle beyond critical, wavelength, absorption", "why_tests_cant": "limit statement", "anchors": [{"file": "coralign/maskgen/util/thinfilm.py", "symbols": ["solver"]}]}
{"id": "C69", "title": "gen_hlc_occulter returns a normalised occulter of the requested shape", "statement": "The result has the requested shape, equals one exactly outside the centred computation window, is the band-limited resampling of the normalised thin-film transmission inside it (preserving the mean), is one everywhere when there is no PMGI, and is never internally upsampled; an occulter radius that makes the window empty gives ZeroDivisionError, a negative one or a window below one file pixel gives TypeError.", "quantifier": "every occulter description passing the input checks, PMGI pattern, wavelength, output shape and shift", "why_tests_cant": "depends on floor/ceil of every combination of samplings and on all pattern contents", "anchors": [{"file": "coralign/maskgen/maskgen.py", "symbols": ["gen_hlc_occulter"]}]}
{"id": "C70", "title": "Spot separation search ends at the fitted maximum-flux separation", "statement": "calc_spot_separation fits a parabola to the flux in the discs around the spot pairs at the trial separations and returns its vertex; with several passes it first moves to the brightest trial separation, and where the fluxes lie on a parabola its vertex is returned exactly.", "quantifier": "every image, star offset and tuning file", "why_tests_cant": "holds for every image and pass count; tests use one simulated image", "anchors": [{"file": "coralign/occastro/occastro.py", "symbols": ["calc_spot_separation"]}]}
{"id": "C71", "title": "The true DM registration minimises the registration costs", "statement": "If the measured phase change is the wavefront of the simulated mirror at some registration plus a plane, then the cost of that registration is the least of all trials.", "quantifier": "every pair of phase maps, mask, mirror command and registration", "why_tests_cant": "all commands and registrations; the failing ones need a particular surface shape", "anchors": [{"file": "coralign/dmreg/dmreg.py", "symbols": ["calc_translation_clocking"]}]}
{"id": "C72", "title": "DM scale search compares the data with the mirror at the trial scales", "statement": "The returned scales are the file's scales times the factors found by the configured passes; on quadratic costs a pass ends at the optimum; the cost of a trial is the misfit between the data and the mirror simulated at the trial scales, so that data made by the mirror at the file's scales have zero cost there.", "quantifier": "every image shape, mask, mirror command and pass count", "why_tests_cant": "the tests only use square images", "anchors": [{"file": "coralign/dmreg/dmreg.py", "symbols": ["calc_scale"]}]}
{"id": "C73", "title": "platesolv gives back the guess for an image compared with itself", "statement": "When the recorded image is a positive multiple of the guess image and the guess scale is one of the trials, the residual at the guess scale is zero and no other trial does better.", "quantifier": "every image and guess scale", "why_tests_cant": "whether the two matrix transforms undo each other depends on the sampling; the tests compare within a tolerance for one PSF", "anchors": [{"file": "coralign/platesolv/platesolv.py", "symbols": ["platesolv"]}]}
{"id": "C74", "title": "rect_proper draws the rotated rectangle with antialiased edges", "statement": "rect_proper returns an ny by nx array whose every pixel is the mean, over the nSubpixels horizontal lines crossing the pixel, of the exact length of that line inside the rectangle (centre, size and counter-clockwise rotation as given, coordinates relative to the centre pixel); pixels wholly inside are 1, wholly outside 0, isDark gives one minus that, and a larger rectangle is never darker.", "quantifier": "every array size (square or not), width, height, offset (also off the array), rotation angle, number of subpixels and flag", "why_tests_cant": "The scan conversion walks the corners with running indices and clips at the array borders; a wrong corner order or border case appears only for particular angles, aspect ratios and offsets.", "anchors": [{"file": "coralign/util/shapes.py", "symbols": ["rect_proper"]}]}
{"id": "C75", "title": "fit_ellipse measures the filled pupil, wherever it is and however bright", "statement": "fit_ellipse pads the image with its centre pixel kept, thresholds it, fills every gap that nIterDilateErode dilations and as many erosions can close without losing a pupil pixel (if the padding leaves that many pixels on each side), and returns the longer axis of the ellipse of the first contour and its centre relative to the image's centre pixel. Scaling the brightness does not change the result; moving the pupil by whole pixels moves the two offsets by as much and leaves the diameter alone. An empty mask or a negative iteration count never gives a result.", "quantifier": "every image (odd, even, non-square), iteration count, padding factor, brightness factor and whole-pixel translation", "why_tests_cant": "The parity of image and padded sizes decides the half-pixel conventions, and the filling depends on the distance between pupil and array edge; tests use a few pupils on one array size.", "anchors": [{"file": "coralign/util/fit_shapes.py", "symbols": ["fit_ellipse"]}]}
{"id": "C76", "title": "fit_circle searches every integer radius in the closed range", "statement": "fit_circle accepts exactly positive radii with min_radius below max_radius and a positive edge width; it searches all integer radii from min_radius to max_radius, both included, in the edges of the thresholded image, and returns the best circle's centre relative to the image's centre pixel and its radius, which lies in the range. Positive affine changes of brightness do not change the result; without a circle it raises IndexError.", "quantifier": "every image, radius range, edge width and brightness change", "why_tests_cant": "Endpoints of the range and the offset convention for odd, even and non-square images matter for all sizes.", "anchors": [{"file": "coralign/util/fit_shapes.py", "symbols": ["fit_circle"]}]}
{"id": "C77", "title": "fit_unmasked_pupil depends only on the thresholded pupil and follows it", "statement": "fit_unmasked_pupil thresholds the image, takes the diameter from the fitted ellipse, finds the offsets by comparing low spatial frequencies with the reference mask at that diameter around the ellipse's rounded centre, and the clocking from the pixels that agree with the turned, padded reference. Changing exposure or background does not change any output; moving the pupil by whole pixels moves the offsets by as much and keeps the diameter; a pupil that is the reference moved by one of the trial shifts gets exactly that offset. It always ends, and refuses non-positive tuning values with TypeError.", "quantifier": "every image, reference mask, tuning parameters, brightness change and whole-pixel translation", "why_tests_cant": "Rounding of half-pixel centres, even and odd sizes and trial grids combine; tests fit a few simulated pupils on one array size.", "anchors": [{"file": "coralign/pupil/pupilfit.py", "symbols": ["fit_unmasked_pupil"]}]}
{"id": "C78", "title": "fit_unmasked_pupil_old scales the nominal diameter by the square root of the area ratio", "statement": "fit_unmasked_pupil_old returns as diameter nBeamNom times the square root of the ratio of the pupil's area to the nominal mask's, each the total of the bright part in units of its own percentile. A pupil proportional to the nominal mask gets exactly nBeamNom; for masks of zeros and ones the areas are pixel counts. Scaling the brightness changes nothing. A negative deltaAmpMax or zero padding or a percentile that is not positive gives TypeError.", "quantifier": "every pupil image, nominal mask, reference mask and tuning parameters", "why_tests_cant": "The normalisation and the thresholds interact for every brightness distribution; tests use a few masks.", "anchors": [{"file": "coralign/pupil/pupilfit.py", "symbols": ["fit_unmasked_pupil_old"]}]}
{"id": "C79", "title": "fit_pupil_zernikes returns the least-squares Zernike coefficients over the mask and true residuals", "statement": "For any 2-D phase map fit_pupil_zernikes returns the coefficients of Noll modes 1 to max(3, Z_noll_max), centred and scaled by the fitted pupil, that minimise the squared residual over the mask (the given one, or the thresholded amplitude, eroded if an element is given), with the map less those modes and less the first three on the mask. The full residual is never larger in squared sum over the mask than the one without the first three modes, nor than the map. A map made of modes gives back their coefficients and a zero residual, adding modes adds their coefficients, and fitting the residual again gives zero. A mask that is not 0/1 or a non-positive Z_noll_max gives TypeError.", "quantifier": "every map, amplitude, mask, erosion element and number of modes", "why_tests_cant": "Optimality and linearity are statements about all maps and all competing coefficient vectors.", "anchors": [{"file": "coralign/pupil/pupilfit.py", "symbols": ["fit_pupil_zernikes"]}]}
{"id": "C80", "title": "fit_pupil_mask_offsets finds the mask's offset from the pupil whatever the exposures, and always ends", "statement": "For images of one shape, fit_pupil_mask_offsets turns both into amplitudes in units of their own bright level and, starting at (0, 0), makes nIterOuter passes; each simulates the masked amplitude as the unmasked one times the scaled, clocked reference at the present estimate from the pupil and adds gain times the best lateral shift of that onto the measurement. It always ends. With unit gain, or after a single pass up to the gain, if the masked amplitude is the simulation at (dx, dy) and that is the simulation at (0, 0) shifted by whole trial steps, the result is (dx, dy) (or the quadratic fit's failure). The exposures of the two images do not matter, for one pass the result is proportional to the gain, and differing shapes or a non-positive gain, diameter or magnification are refused.", "quantifier": "every pair of images, gain, tuning, pupil position, diameter, magnification and clocking", "why_tests_cant": "Termination, exposure invariance and recovery concern all images and tunings; tests use one simulated mask per layout.", "anchors": [{"file": "coralign/pupil/maskfit.py", "symbols": ["fit_pupil_mask_offsets"]}]}
{"id": "C81", "title": "fit_shaped_pupil_mask_offsets is the mask fit about the pupil moved by the shaped-pupil mask", "statement": "fit_shaped_pupil_mask_offsets shifts the unmasked image by the shaped-pupil mask's offset, adds that offset to the pupil position, and otherwise does what fit_pupil_mask_offsets does. For whole-pixel offsets it returns a result exactly when the plain fit on the zero-filled shifted image does, and the same one. Exposures do not matter; invalid inputs are refused as there.", "quantifier": "every pair of images, tuning, pupil and shaped-pupil mask position", "why_tests_cant": "Equality with the plain fit is a statement about all images and offsets.", "anchors": [{"file": "coralign/pupil/maskfit.py", "symbols": ["fit_shaped_pupil_mask_offsets"]}]}
{"id": "C82", "title": "fit_z_induced_spm_shear returns the movement of the poke in the pupil, whatever tilt or common phase is present", "statement": "The offset is what psffit finds between the two poke signatures: poked minus unpoked phase, unwrapped and with its best plane removed on the software mask. If the pupil and a poke in it move by whole pixels (at most half the frame), with any added tilt, the result is that movement. Phase present both with and without the poke does not matter. Maps of one shape with thresholdable amplitudes have a result; maps whose shapes differ are refused, except that the last phase map is compared with the first set's shape.", "quantifier": "every set of amplitude and phase maps, movement, tilt and common phase screen", "why_tests_cant": "Recovery must hold for all pokes, pupils and displacements.", "anchors": [{"file": "coralign/pupil/maskfit.py", "symbols": ["fit_z_induced_spm_shear"]}]}
{"id": "C83", "title": "fit_lyot_stop_mag_clocking finds the magnification at which most pixels agree with the mask", "statement": "The first magnification is the square root of a ratio of bright amplitudes; the lateral shift is found at that magnification, the clocking next, and then nIterMag times the magnification is replaced: by the trial with most agreeing pixels in the first of several passes, and by the vertex of the parabola fitted to the squared shortfall of the counts in the others, with nMag trials of half-width magShrinkFac times deltaMag throughout. The search determines its answer; a last pass ends on the trial from which the counts fall linearly, and on one if all trials agree equally. A common exposure factor does not matter, the fit ends, and out-of-range inputs are refused.", "quantifier": "every pair of images, pupil position and tuning", "why_tests_cant": "Determinism, exposure invariance and termination range over all images and search settings.", "anchors": [{"file": "coralign/pupil/maskfit.py", "symbols": ["fit_lyot_stop_mag_clocking"]}]}
{"id": "C84", "title": "The Zernike modes are orthonormal over the pupil", "statement": "With the values xyzern gives for Noll modes j and j' at the points of the pupil disc of radius prad, the product of two different modes integrates to zero over the disc and each mode has mean square one. So the mean square over the pupil of any weighted sum of modes is the sum of the squared coefficients (a coefficient is an rms value), the mean is the coefficient of mode 1, each coefficient is the mean of the sum times its mode, and a sum of modes determines its coefficients.", "quantifier": "every pupil radius > 0, every pair of Noll indices >= 1, every finite list of coefficients", "why_tests_cant": "The claim is an integral over a continuum of points for infinitely many pairs of modes; a test samples a pixel grid, where it holds only approximately.", "anchors": [{"file": "coralign/util/nollzernikes.py", "symbols": ["xyzern"]}]}
{"id": "C85", "title": "On a grid of usable pixels the Zernike fit has exactly one answer", "statement": "If more than d rows and more than d columns of the mask meet in usable pixels only, where d is the radial order of the highest fitted Noll mode, then the modes are linearly independent on the mask for any beam diameter and offset. So fit_zernikes returns the only coefficients whose residual is orthogonal to all modes, independently of the least-squares solver; it returns the coefficients of a map made of the modes; it is linear in the map; and fit_pupil_zernikes leaves nothing of such a map.", "quantifier": "every mask with such a grid, every highest mode, every beam diameter > 0 and offset, every map, every correct least-squares solver", "why_tests_cant": "Independence must hold for every mask, size, offset and number of modes; a test tries a few masks, and a rank-deficient fit is not visible in its residual.", "anchors": [{"file": "coralign/util/nollzernikes.py", "symbols": ["fit_zernikes", "xyzern"]}, {"file": "coralign/pupil/pupilfit.py", "symbols": ["fit_pupil_zernikes"]}]}
{"id": "C86", "title": "Command and height maps convert by the calibration spline, without extrapolation", "statement": "On a square DM, compute_heights_for_command_map and compute_commands_for_height_map return at every actuator the value of the not-a-knot cubic spline through its calibration points; that value does not depend on the implementation; actuators with a cubic response are converted exactly, constant-gain actuators round-trip exactly (curved ones need not between calibration commands); a map is converted exactly when every entry is in the calibrated range and ValueError is raised otherwise.", "quantifier": "every square command or height map, every calibration of at least four ascending commands, every cube of heights", "why_tests_cant": "a test sees one calibration; exactness and the range rule are claims over all calibrations and maps", "anchors": [{"file": "coralign/gainmap/gm_util.py", "symbols": ["compute_heights_for_command_map", "compute_commands_for_height_map"]}]}
{"id": "C87", "title": "Resampled surfaces, commands, influence functions and masks are the bicubic spline through their samples", "statement": "dmhtoph (no rotation or shift), resample_inf_func, conv_surf_to_dm_cmd (no clocking) and rotate_shift_downsample (no rotation) return, at every output position and for fractional samplings and displacements, the value of the unique not-a-knot bicubic spline through the input samples: polynomials of degree three per axis are reproduced exactly, dmhtoph is zero beyond the samples, the others use the nearest edge point.", "quantifier": "every DM, influence function, surface and mask with at least four samples per axis, every sampling and displacement, every implementation of the spline", "why_tests_cant": "the positions and samplings are continuous and the surfaces arbitrary; a test compares a few grids with another run of the same spline", "anchors": [{"file": "coralign/util/dmhtoph.py", "symbols": ["dmhtoph"]}, {"file": "coralign/util/fit_surf_to_dm.py", "symbols": ["resample_inf_func"]}, {"file": "coralign/conjugate/conjugate.py", "symbols": ["conv_surf_to_dm_cmd"]}, {"file": "coralign/maskgen/maskgen.py", "symbols": ["rotate_shift_downsample"]}]}
{"id": "C88", "title": "A probe command is the superposition of sinusoids over its focal-plane rectangle", "statement": "Every actuator of dmshapes.probe has as height the integral over [ximin,ximax] x [etamin,etamax] of sinusoids of amplitude 2*height/dact^2 and the given phase, evaluated at the actuator position relative to (xcenter, ycenter) and clocked; for a centred unclocked probe these sinusoids are the commands returned by dmshapes.sine. Hence its Fourier transform is two uniform rectangles of the requested size.", "quantifier": "every DM size, pupil size, centre, clocking, height, rectangle and phase", "why_tests_cant": "an identity between a closed formula and an integral over a continuum of frequencies, for a continuum of parameters", "anchors": [{"file": "coralign/util/dmshapes.py", "symbols": ["probe", "sine"]}]}
{"id": "C89", "title": "Gain maps interpolate the finite differences linearly", "statement": "For calibration data with at least three strictly increasing commands and a square actuator grid, compute_gainmap returns for each actuator the value, at its command, of the broken line through the finite-difference slopes placed midway between neighbouring calibration commands; commands below the first or above the last midway point are extrapolated along the first or last segment. Calibration files that are not a vector and a cube, commands that repeat, a slice count different from the number of commands, or a map of another shape raise ValueError. With two calibration commands every gain is nan; with one the call ends in IndexError.", "quantifier": "every ascending command vector, every height cube, every command map, every actuator, every interval", "why_tests_cant": "Calibration curves, spacings and commands range over a continuum; a test fixes one data set, and quadratic examples cannot tell linear interpolation from a higher order one.", "anchors": [{"file": "coralign/gainmap/gainmap.py", "symbols": ["compute_gainmap"]}, {"file": "coralign/gainmap/gm_util.py", "symbols": ["compute_gain_cube_from_height_cube", "compute_diff_and_mean_of_vector"]}]}
{"id": "C90", "title": "Complex masks are resampled as their real part", "statement": "rotate_shift_downsample_amplitude_mask accepts a complex-valued 2-D array and returns, for every rotation, magnification, offset, padding and flip and with the same exceptions, exactly what it returns for the array's real part: an imaginary part is dropped silently, so a mask with phase is not reproduced even at unit magnification.", "quantifier": "every complex mask, rotation, magnification, offset, padding factor and flip; every rotation routine and resampling spline", "why_tests_cant": "Shipped masks are real, so tests never pass a complex one; the equality has to hold for all masks and settings.", "anchors": [{"file": "coralign/maskgen/maskgen.py", "symbols": ["rotate_shift_downsample_amplitude_mask"]}]}
{"id": "C91", "title": "Malformed inputs are refused with the exception of their first fault", "statement": "calc_offset_from_spots, calc_bowtie_offsets_from_spots, calc_star_location_from_spots, calc_spot_separation, gen_dark_hole_from_yaml, calc_translation_clocking and calc_scale test what they need of their files and arrays in a fixed order: a dictionary (TypeError), each key (KeyError), the type and sign of each value (TypeError, or ValueError in the mirror registration), allowed values (ValueError), a frame a mask can be drawn on (TypeError or IndexError). An input is refused exactly when one of these fails, with the exception of the first that fails; in particular shapes of a dark hole are tested in file order, and an input that meets them all gives an estimate unless a fitted quadratic has no optimum. The same holds, with their own lists, of psffit, fit_lyot_stop_mag_clocking, the plate solution and flatten, and of the numerical functions called directly: the three matrix Fourier transforms, fresnelprop and get_fp, resampling and prefiltering an influence function, turning a surface into mirror commands, the quadrant balance, the upsampled transform, Zernike maps and sums, the wavefront split and its cost.", "quantifier": "every parsed YAML value (nested arbitrarily, any keys, any value types), every image and map size, every mirror number and wavelength", "why_tests_cant": "The faults combine freely, and which exception a caller sees depends on the order of all checks; tests only plant one fault at a time.", "anchors": [{"file": "coralign/focalfit/focalfit.py", "symbols": ["calc_offset_from_spots", "calc_bowtie_offsets_from_spots"]}, {"file": "coralign/occastro/occastro.py", "symbols": ["calc_star_location_from_spots", "calc_spot_separation"]}, {"file": "coralign/buildmodel/darkhole.py", "symbols": ["gen_dark_hole_from_yaml"]}, {"file": "coralign/dmreg/dmreg.py", "symbols": ["calc_translation_clocking", "calc_scale"]}, {"file": "coralign/util/mft.py", "symbols": ["do_mft", "do_imft", "do_offcenter_mft"]}, {"file": "coralign/util/fresnelprop.py", "symbols": ["fresnelprop", "get_fp"]}]}
{"id": "C92", "title": "flatten's DM commands cancel the wavefront it was asked to remove, at the actuators", "statement": "When flatten succeeds with flagUseDMs, take any illuminated pixel of the pupil that lies under an actuator of each DM. The change of the two DM surfaces caused by the change of commands (volts times gain, spread by the influence functions), doubled by reflection, equals the wavefront to be removed there: with flagHighZernikes the input phase without piston, tip and tilt (and without focus when the focus mechanism is used); without it, the fitted Zernike modes from focus (or mode 5) up to maxNollZern. If both DMs have the same influence function and registration, this also holds with dead actuators, as long as no actuator is dead on both DMs.", "quantifier": "all amplitude and phase maps, commands, gains, influence functions, registrations without clocking (and not both mirrored and shifted sideways), wavelengths, pupil sizes, offsets, tie maps, and all spline, solver and minimiser routines meeting their contracts", "why_tests_cant": "The claim links the Zernike fit, the split between mirrors, cropping and smoothing, spline sampling, the inverse of the influence matrix, dead-actuator bookkeeping and unit conversion; a test compares one wavefront within a tolerance and cannot show that no input leaves a residual.", "anchors": [{"file": "coralign/conjugate/conjugate.py", "symbols": ["flatten", "conv_surf_to_dm_cmd"]}]}
{"id": "C93", "title": "A mask coarser than its design is never refused as upsampling", "statement": "gen_hlc_occulter, given settings that pass its checks and ask for fewer pixels per lambda/D than the occulter design has, resamples the design with a magnification in (0, 1] of its own making. It never fails with the type error 'does not perform upsampling', which only its internal rounding could trigger.", "quantifier": "all f-numbers, wavelengths, pixel widths, resolutions, occulter radii and oversize factors, as doubles, with and without wavelength scaling", "why_tests_cant": "the rounding that pushes the magnification above one happens only for isolated combinations of doubles, which a handful of shipped settings does not contain", "anchors": [{"file": "coralign/maskgen/maskgen.py", "symbols": ["gen_hlc_occulter", "rotate_shift_downsample_amplitude_mask"]}]}
{"id": "C94", "title": "circle is symmetric, movable and monotone bit for bit", "statement": "In double precision, circle() returns finite values in [0,1]. With whole-pixel offsets it is exactly symmetric under reflections in both axes and the diagonals, moving the offset by whole pixels moves the mask without changing a bit, and the mask does not depend on the array it is drawn in. A larger radius never dims a pixel (never brightens one when isDark).", "quantifier": "all array sizes, double radii and offsets, subpixel counts, pixels and both values of isDark", "why_tests_cant": "a rounding that breaks a symmetry or flips a subpixel shows only for particular radii, offsets and pixels", "anchors": [{"file": "coralign/util/shapes.py", "symbols": ["circle"]}]}
{"id": "C95", "title": "circle is accurate in double precision", "statement": "Rounding changes a pixel of circle() only through subpixels that lie on the rim: with sizes, radius and offsets up to 2^k pixels, the result differs from the exact subpixel coverage by at most the fraction of subpixel centres within 2^(k-47) pixels of the rim plus 2^-52, and is the correctly rounded exact coverage when there are none. The shortcut for pixels away from the rim never misclassifies a pixel.", "quantifier": "all array sizes, double radii and offsets up to 2^40 pixels, subpixel counts up to 2^26, pixels and both values of isDark", "why_tests_cant": "tests compare a few masks with a tolerance; they cannot bound the rounding of every pixel of every mask", "anchors": [{"file": "coralign/util/shapes.py", "symbols": ["circle"]}]}
{"id": "C96", "title": "Rectangles and annuli of the dark hole are exact in double precision", "statement": "With double precision arithmetic, gen_rectangle and gen_annulus mark exactly the pixels inside the requested shape, rim included, whenever offsets and dimensions are multiples of 2^-t pixels and at most 2^(23-t) pixels. For all other doubles only pixels within 2^(k-47) pixels of a rim (half of 2^(k-51) for a rectangle, which never loses a pixel) can be misplaced, where 2^k bounds the sizes and offsets. Non-positive sizes, negative radii and an inner radius above the outer radius are refused; NaN is not.", "quantifier": "all array sizes, offsets and dimensions that are doubles, and all pixels", "why_tests_cant": "A test compares a few masks; rounding in the square root or in the coordinates could flip a rim pixel for any other size, offset or radius.", "anchors": [{"file": "coralign/buildmodel/darkhole.py", "symbols": ["gen_coords", "gen_rectangle", "gen_annulus"]}]}
{"id": "C97", "title": "The trial positions of the searches, in double precision", "statement": "In double precision the positions tried by calc_star_location_from_spots and calc_spot_separation are in increasing order, within a few units of rounding of the evenly spaced ones, include the current estimate exactly when their number is odd, and lie symmetrically about it. The values tried by compute_clocking, the registration searches and the magnification search run exactly from one end of the range to the other, in order, and include the middle of the range when their number is odd.", "quantifier": "all step sizes, estimates, ranges and numbers of steps, as doubles away from overflow and underflow", "why_tests_cant": "which positions survive rounding depends on the bit patterns of the step and the number of steps; a few literal grids say nothing about the others", "anchors": [{"file": "coralign/occastro/occastro.py", "symbols": ["calc_star_location_from_spots", "calc_spot_separation"]}, {"file": "coralign/pupil/util.py", "symbols": ["compute_clocking"]}, {"file": "coralign/pupil/maskfit.py", "symbols": ["fit_lyot_stop_mag_clocking"]}, {"file": "coralign/dmreg/dmreg.py", "symbols": ["calc_translation_clocking"]}]}
{"id": "C98", "title": "Padding keeps the element type and fills with the value converted to it", "statement": "pad_crop and offcenter_crop return an array of the type of their input (boolean, 64-bit integer, double or complex) whose input pixels are unchanged; the pixels around them hold extrapval in that type: truncated towards 0 in an array of integers, True when non-zero in one of booleans, the same double (NaN, infinities and -0 included) in one of doubles, with no imaginary part in one of complex numbers. Values that are not real numbers are refused with TypeError. offcenter_crop rounds centres given as doubles half to even and pads exactly for sizes and centres up to 2^50; a NaN centre gives ValueError, an infinite one OverflowError.", "quantifier": "all four element types, all array and output sizes, all fill values (booleans, integers, doubles), all double centres", "why_tests_cant": "The conversion depends on the pair of types and on the value, and the loss beyond 2^53 only shows for integers no test tries.", "anchors": [{"file": "coralign/util/pad_crop.py", "symbols": ["pad_crop", "offcenter_crop"]}]}
{"id": "C99", "title": "combine and crop turn frames of any type into doubles with NaN exactly where promised", "statement": "combine and crop return arrays of doubles for frames of booleans, 64-bit integers, doubles or complex numbers. Pixels keep their value: integers become the nearest double (themselves up to 2^53), complex numbers their real part. combine followed by crop has NaN exactly at the pixels outside the frame, the bad pixels and the pixels that were NaN. combine refuses a map of another shape or of another type than boolean with TypeError; crop refuses bad sizes with TypeError and a corner outside the frame with ValueError, and nothing else.", "quantifier": "all four element types, all frames, maps, corners and window sizes", "why_tests_cant": "The pixel rule ranges over every frame, every window position and every pair of types; tests use frames of doubles.", "anchors": [{"file": "coralign/util/combine_crop.py", "symbols": ["combine", "crop"]}]}
{"id": "C100", "title": "Rounding leaves antialiased masks in range and symmetric", "statement": "The masks of ellipse, rectangle, annular_segments, simple_pupil and circle hold finite doubles between 0 and 1, whatever the C library returns for sines and angles. With whole-pixel offsets the stored doubles are the same: after half a turn for an ellipse at any angle; after mirroring in either axis, and after exchanging the axes, for an upright ellipse; after moving a rectangle or annular segments or changing the array; and after mirroring a rectangle while reversing its rotation, outside the central row. A pupil is nowhere brighter than its outer disc and an added strut brightens nothing. Each function refuses exactly the listed arguments with the listed exception.", "quantifier": "all doubles, including infinities and NaN, as sizes, angles and offsets of the shapes; all array sizes, all C libraries (even and odd symmetry and exactness at zero where stated)", "why_tests_cant": "Tests compare masks to within a tolerance for a few parameters. Equality of doubles after a symmetry must hold for every parameter and array size and for every rounding of the library functions.", "anchors": [{"file": "coralign/util/shapes.py", "symbols": ["ellipse", "rectangle", "annular_segments", "simple_pupil", "circle"]}]}
{"id": "C101", "title": "Rounding hardly moves the edges of rectangles and pupils", "statement": "With a C library whose cosines, sines and polar angles are accurate to about one unit in the last place, a pixel of rectangle() differs from the exact fraction of its subpixel centres covered by the turned rectangle by at most the fraction of subpixel centres within 2^(k-43) pixels of the border, plus 2^-52, for sizes and offsets up to 2^k pixels; if no subpixel centre is that close it is the exact fraction, correctly rounded. A pixel of simple_pupil() is in the same sense the product of the exact coverages of the outer disc, outside the inner disc and outside every strut, the struts being placed with the exact 0.6 of the diameter and exact angles.", "quantifier": "all finite double sizes and offsets up to 2^k pixels (k up to 36, 35 for pupils), all rotations up to 1024 degrees, all array sizes up to 2^k, all numbers of subpixels up to 2^26, any list of struts, any accurate C library", "why_tests_cant": "Tests compare a few masks with a tolerance chosen by hand. A bound on the effect of rounding must hold for every size, angle and offset, and depends on how the errors of a dozen operations combine.", "anchors": [{"file": "coralign/util/shapes.py", "symbols": ["rectangle", "simple_pupil"]}, {"file": "coralign/util/math.py", "symbols": ["cart2pol"]}]}
{"id": "C102", "title": "Image measurements survive rounding and expose bad pixels", "statement": "In double precision, whatever the order in which numpy adds: center_of_energy() returns the mean column and row to within 2^-51 of the side per pixel, locates a single lit pixel without error, and returns (nan, nan) as soon as one pixel is nan or infinite. quadrant_energy_balance() counts exactly the pixels of the disc, returns the exact balances to within 2^-48 per pixel, and returns (nan, nan) if a pixel anywhere is nan or a pixel inside the disc is infinite; infinite pixels all outside the disc, and a nan radius, are not noticed and give (0, 0). rms() is accurate to 2^-50 per element and nan if an element is nan.", "quantifier": "all images of finite non-negative doubles with at most 2^40 pixels and a sum below 2^1000 (accuracy), all images of doubles (bad pixels), all radii on a dyadic grid, all orders of summation", "why_tests_cant": "The order of summation is chosen by numpy and depends on the size and the processor, and a bad pixel can be anywhere among any values. Tests fix one image and one machine.", "anchors": [{"file": "coralign/util/center.py", "symbols": ["center_of_energy"]}, {"file": "coralign/util/quad.py", "symbols": ["quadrant_energy_balance"]}, {"file": "coralign/util/math.py", "symbols": ["rms"]}]}
{"id": "C103", "title": "psffit() does not pass off a bad pixel as a measurement", "statement": "If the source or the target image has a nan pixel, psffit() raises no exception and cannot register the images, so what it returns should show it. The amplitude does: it is nan whenever the target has a nan pixel, or the shifted source has one on a pixel used for the amplitude. The shift does not: it is finite and the same for all images, half the search window along both axes (0.75 pixel with the delivered configuration).", "quantifier": "all image sizes, all pixel values and positions of bad pixels in either image, all configurations, any interpolation by scipy.ndimage.shift", "why_tests_cant": "The returned shift looks like a measurement; only the comparison over all pairs of images shows that it does not depend on them.", "anchors": [{"file": "coralign/psffit/psffit.py", "symbols": ["psffit", "compute_upsampled_dft"]}]}
{"id": "C104", "title": "Focal-plane mask offsets in double precision", "statement": "calc_offset_from_spots() and calc_bowtie_offsets_from_spots() do their arithmetic in doubles. If any pixel is nan or saturated to infinity, inside the regions of interest or not, every returned offset is nan. A result that is not nan lies within plus and minus the maximum step exactly. An image of photon counts with parameters of ordinary size always gives finite offsets. The rounded offset never has the wrong sign against the target ratio, and more light in the positive region with less in the negative one never moves the estimate the wrong way, not even in the last place. The offset computed from a ratio is within a few units in the last place of the one the calibration polynomial assigns to it.", "quantifier": "all images, all tuning parameters, all mask offsets and clocking angles, any trigonometric functions, any order of the additions that depends only on the number of terms (any order at all for the claims other than monotonicity)", "why_tests_cant": "Monotonicity and sign after rounding are claims about every pair of neighbouring inputs; a sample of images does not visit the ones where a subtraction or the square root rounds the other way.", "anchors": [{"file": "coralign/focalfit/focalfit.py", "symbols": ["calc_offset_from_spots", "calc_bowtie_offsets_from_spots"]}, {"file": "coralign/focalfit/ff_util.py", "symbols": ["calc_offset_linear", "calc_offset_quadratic", "bound_value"]}]}
{"id": "C105", "title": "Zernike modes in double precision", "statement": "xyzern() and gen_zernikes() evaluate every requested mode accurately in doubles: the value at a point of the pupil is the Noll polynomial up to rounding. The coefficients of the radial polynomial, obtained with gamma functions, rounded products and a rounded quotient, are the exact integers. An index that is accepted gives numbers, not nan or infinity.", "quantifier": "all grids of points inside the pupil, all pupil radii, all lists of Noll indices, any library hypot, arctan2, cos, sin and gamma of the stated accuracy", "why_tests_cant": "A test compares a handful of low modes on one grid. The cancellation between coefficients grows with the radial order and the factorials overflow at one particular order; neither shows on the modes a test would pick, and the error bound is a claim about every point.", "anchors": [{"file": "coralign/util/nollzernikes.py", "symbols": ["xyzern", "gen_zernikes"]}]}
{"id": "C106", "title": "Matrix Fourier transforms in double precision", "statement": "do_mft(), do_offcenter_mft() and do_imft() as run, in doubles, return finite values within a stated distance of the sum of the Fourier integral: relative to the sum of the magnitudes of the field, 2^-47 per turn of phase across the array plus 2^-50 per row and column. At critical sampling do_imft() of do_mft() gives the field back to within 2^-45 times the size of the array. A border of zeros about the field does not change the result. The inputs that are refused, with the exception raised, are exactly the stated ones.", "quantifier": "all complex fields up to 2^20 by 2^20, all output shapes, samplings and placements, any library exp and dot of the stated accuracy", "why_tests_cant": "A test compares one field at one sampling with a tolerance chosen by trial. The bound is a claim about every size and sampling, about how it grows with the phase, and about every order in which a matrix product may be added up.", "anchors": [{"file": "coralign/util/mft.py", "symbols": ["do_mft", "do_offcenter_mft", "do_imft", "_interval"]}]}
{"id": "C107", "title": "Fresnel propagation in double precision stays close to the exact propagation", "statement": "With accurate library routines, every entry of the phase factor returned by get_fp is finite and differs from exp(-i pi lam z (fx^2+fy^2)) by at most 2^-49 times the phase plus 2^-51. The field returned by fresnelprop, or by fresnelprop_fp with that factor, is finite, keeps its shape and differs from the exact propagation, in root sum of squares, by at most three times the relative error of the Fourier transforms plus 2^-47 times the number of points, relative to the size of the field. The sampling criterion lam |z| pixpermeter^2 <= points is the one of the exact numbers away from equality, a zero distance returns the field itself, and each refused argument raises the documented exception. Propagating a square field on its own grid and then over the opposite distance is accepted and returns the field within three such errors. do_fft and do_ifft return the centred spectrum and the field of a given spectrum within the error of the library transforms, and one undoes the other.", "quantifier": "all fields of finite doubles, wavelengths, samplings and distances between 2^-100 and 2^100 (or zero distance), grids up to 2^20 points, and all routines for squares, hypotenuses, exponentials and Fourier transforms that meet their accuracy; for the refusals all doubles, nan and infinities included", "why_tests_cant": "Rounding errors of phases and transforms depend on every bit of the arguments; a comparison on a few grids cannot bound them, and the criterion goes wrong only at values where the rounded product crosses an integer.", "anchors": [{"file": "coralign/util/fresnelprop.py", "symbols": ["fresnelprop", "get_fp", "fresnelprop_fp", "do_fft", "do_ifft"]}]}
