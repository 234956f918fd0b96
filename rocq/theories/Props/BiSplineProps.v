(** Properties of the resampling by RectBivariateSpline in dmhtoph, fit_surf_to_dm, conjugate and maskgen: C87. *)
From Coq Require Import ZArith Bool List Reals Lra Lia.
From Flocq Require Import Core.
From Verif.Base Require Import Py Arr Vec Sums Lstsq.
From Verif.Model Require Import PadCrop Math Noll Fits Fresnel Dm Conjugate MaskGen.
From Verif.Spec Require Import MathSpec DmSpec FitsSpec ConjugateSpec MaskGenSpec SplineSpec BiSplineSpec PlateSolvSpec.
From Verif.Proofs Require Import DmP ConjugateCmdP ConjugateEx MaskGenP BiSpline BiSplineUse BiSplineEx.
Import ListNotations.
Open Scope Z_scope.

(** C87. There is exactly one not-a-knot bicubic spline through samples on increasing grids, and a bicubic polynomial is its own
    spline: resampled values do not depend on how the spline is computed. *)
Theorem C87_exists : forall ys xs a, 4 <= nr a -> 4 <= nc a -> grows (nr a) ys -> grows (nc a) xs -> exists f, bicubic_spline ys xs a f.
Proof. exact (fun ys xs a Hr Hc Gy Gx => ex_intro _ _ (tensor_bicubic ys xs a Hr Hc Gy Gx)). Qed.
Print Assumptions C87_exists.
Theorem C87_unique : forall ys xs a b f g, aeq a b -> 4 <= nr a -> 4 <= nc a -> grows (nr a) ys -> grows (nc a) xs ->
  bicubic_spline ys xs a f -> bicubic_spline ys xs b g ->
  forall y x, (ys 0%Z <= y <= ys (nr a - 1)%Z)%R -> (xs 0%Z <= x <= xs (nc a - 1)%Z)%R -> f y x = g y x.
Proof. exact bicubic_unique. Qed.
Print Assumptions C87_unique.
Theorem C87_samples : forall ys xs a f i j, 4 <= nr a -> 4 <= nc a -> grows (nc a) xs -> bicubic_spline ys xs a f ->
  in_arr a i j -> f (ys i) (xs j) = at2 a i j.
Proof. exact bicubic_at. Qed.
Print Assumptions C87_samples.
Theorem C87_polynomial : forall ys xs a c, (forall i j, in_arr a i j -> at2 a i j = bicubic c (ys i) (xs j)) ->
  bicubic_spline ys xs a (bicubic c).
Proof. exact bicubic_poly. Qed.
Print Assumptions C87_polynomial.

(** C87. dmhtoph at any camera sampling, unrotated and unshifted: each pixel has the value, at its position in actuators, of the
    spline through the superposition of influence functions, and zero beyond it. *)
Theorem C87_dm_surface : forall ops nrow ncol dmin nact inf ppd cx cy fx out f, wf inf -> still ops -> scipy_bicubic_dm ops ->
  dmhtoph ops nrow ncol dmin nact inf ppd cx cy 0 0 0 fx = Ok out ->
  let n := (nact - 1) * ppd + nr inf in
  let hw := ((IZR n - 1) / 2 / IZR ppd)%R in
  bicubic_spline (centred n (IZR ppd)) (centred n (IZR ppd)) (Arr n n (superposition nact ppd dmin inf)) f ->
  nr out = nrow /\ nc out = ncol /\
  forall i j, in_arr out i j ->
    let X := (IZR (if fx then - (j - ncol / 2) else j - ncol / 2) / cx)%R in
    let Y := (IZR (i - nrow / 2) / cy)%R in
    ((Rabs X <= hw /\ Rabs Y <= hw)%R -> at2 out i j = f Y X) /\
    (~ (Rabs X <= hw /\ Rabs Y <= hw)%R -> at2 out i j = 0%R).
Proof. exact dm_spline. Qed.
Print Assumptions C87_dm_surface.

(** C87. resample_inf_func: an odd number of points, each with the value of the spline through the influence function at its
    position in actuators (the nearest point of the input grid if it lies outside). *)
Theorem C87_influence : forall sp inf p q k f, scipy_bicubic_kernel sp -> resample_inf_func sp inf p q = Ok k -> p <> q ->
  bicubic_spline (centred (nr inf) p) (centred (nc inf) p) inf f ->
  nr k = 2 * Zfloor (IZR (nr inf) * q / (2 * p)) + 1 /\ nc k = 2 * Zfloor (IZR (nc inf) * q / (2 * p)) + 1 /\
  forall i j, in_arr k i j ->
    at2 k i j = f (nearest_in (centred (nr inf) p 0) (centred (nr inf) p (nr inf - 1)) (centred (nr k) q i))
                  (nearest_in (centred (nc inf) p 0) (centred (nc inf) p (nc inf - 1)) (centred (nc k) q j)).
Proof. exact kernel_spline_ok. Qed.
Print Assumptions C87_influence.

(** C87. conv_surf_to_dm_cmd without clocking: the surface the command makes has, at every actuator, the value of the spline
    through the given surface at the position of the actuator, fractional pixels included (columns mirrored for a flipped DM). *)
Theorem C87_command : forall ops surf dm h k f, is_solver (co_solve ops) -> conv_surf_to_dm_cmd ops surf dm = Ok h ->
  (forall A, build_prefilter (co_spline2 ops) (c_nact dm) (c_nact dm) (c_inf dm) (c_ppact_d dm) = Ok A ->
     nonsingular (sdim A) (sat A)) ->
  resample_inf_func (co_spline2 ops) (c_inf dm) (c_ppact_d dm) 1 = Ok k ->
  nr k mod 2 = 1 -> nc k mod 2 = 1 -> point_symmetric k ->
  c_thact dm = 0%R -> no_rotation (co_rotate ops) -> scipy_bicubic (co_bispline ops) ->
  bicubic_spline (pixel (nr surf)) (pixel (nc surf)) surf f ->
  forall r c, 0 <= r < c_nact dm -> 0 <= c < c_nact dm ->
  let Y := inside (nr surf) ((IZR r - (IZR (c_nact dm) - 1) / 2) * c_ppact_cy dm + c_dy dm)%R in
  let X := inside (nc surf) ((IZR c - (IZR (c_nact dm) - 1) / 2) * c_ppact_cx dm + c_dx dm)%R in
  dm_surface k h r c = f Y (if c_flipx dm then mirrored (nc surf) X else X).
Proof. exact conv_spline. Qed.
Print Assumptions C87_command.

(** C87. rotate_shift_downsample without rotation, at any magnification and shift: the values of the spline through the mask
    averaged over one output pixel. *)
Theorem C87_mask : forall rotate spline a mag xo yo padFac flip h H f, wf a -> scipy_bicubic_vec spline ->
  (0 < mag <= 1)%R -> (1 <= padFac)%R ->
  least_odd_above (padFac * IZR (Z.max (nr a) (nc a))) (2 * h + 1) ->
  least_odd_above (IZR (2 * h + 1) * mag + 2 + 2 * Rmax (Rabs xo) (Rabs yo)) (2 * H + 1) -> 4 <= 2 * h + 1 ->
  bicubic_spline (fun i => IZR (i - h)) (fun j => IZR (j - h))
    (Arr (2 * h + 1) (2 * h + 1) (fun i j => smoothed h (/ (2 * mag)) (flipped a flip) (i - h) (j - h))) f ->
  exists out, rotate_shift_downsample rotate spline a 0 mag xo yo padFac flip = Ok out /\
  nr out = 2 * (H + 1) /\ nc out = 2 * (H + 1) /\
  forall dy dx, - H <= dy <= H -> - H <= dx <= H ->
    at2 out (H + 1 + dy) (H + 1 + dx) =
    f (nearest_in (- IZR h) (IZR h) ((IZR dy - yo) / mag)) (nearest_in (- IZR h) (IZR h) ((IZR dx - xo) / mag)).
Proof. exact mask_spline. Qed.
Print Assumptions C87_mask.

(** The not-a-knot spline meets every requirement made of SciPy in C21, C22, C53, C57, C63, C65, C69 and here. *)
Example C87_dm_ops : scipy_bicubic_dm ops_nak /\ interpolates ops_nak /\ shape_preserving ops_nak /\ linear_ops ops_nak /\ still ops_nak /\
  no_rotation (sp_rotate ops_nak) /\ whole_shift (sp_shift ops_nak).
Proof. exact ops_nak_ok. Qed.
Example C87_kernel : scipy_bicubic_kernel kernel_nak /\ kernel_spline kernel_nak /\ spline_symmetric kernel_nak.
Proof. exact kernel_nak_ok. Qed.
Example C87_conv : scipy_bicubic (co_bispline conv_nak) /\ no_rotation (co_rotate conv_nak) /\ grid_spline (co_bispline conv_nak) /\
  is_solver (co_solve conv_nak) /\ keeps_zero conv_nak /\ (forall a t, nr (co_rotate conv_nak a t) = nr a /\ nc (co_rotate conv_nak a t) = nc a).
Proof. exact conv_nak_ok. Qed.
Example C87_mask_spline : scipy_bicubic_vec mask_nak /\ good_spline mask_nak /\ keeps_zero_spline mask_nak.
Proof. exact mask_nak_ok. Qed.
Example C87_plate : passes_knots plate_nak /\ homogeneous plate_nak.
Proof. exact plate_nak_ok. Qed.
(** A 5 by 5 DM, mirrored and displaced by 0.3 and -0.2 pixels, given a polynomial surface of 9 by 10 pixels. *)
Example C87_hill : exists h, conv_surf_to_dm_cmd conv_nak hill dm_frac = Ok h /\
  forall r c, 0 <= r < 5 -> 0 <= c < 5 -> dm_surface delta3 h r c =
    bicubic ramp (inside 9 ((IZR r - (5 - 1) / 2) * 1 + - (2 / 10))) (mirrored 10 (inside 10 ((IZR c - (5 - 1) / 2) * 1 + 3 / 10))).
Proof.
  destruct hill_command as [h E]. exists h. split; [exact E|]. intros r c Hr Hc.
  destruct conv_nak_ok as (B & N & _ & S & _).
  apply (C87_command conv_nak hill dm_frac h delta3 (bicubic ramp) S E (delta3_prefilter _ 5) (delta3_res _) eq_refl eq_refl
    (proj1 delta3_sym) eq_refl N B hill_spline r c Hr Hc).
Qed.
