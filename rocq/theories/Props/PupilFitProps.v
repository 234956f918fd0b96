(** C77, C78 and C79: fit_unmasked_pupil, fit_unmasked_pupil_old and fit_pupil_zernikes. *)
From Coq Require Import ZArith Bool List Reals Lra Lia String.
From Flocq Require Import Core.
From Coquelicot Require Import Complex.
From Verif.Base Require Import Py Arr Vec Sums Lstsq.
From Verif.Model Require Import Math Fits MaskGen PupilUtil FitShapes Unwrap PupilFit.
From Verif.Spec Require Import ZernikeSpec FitsSpec FitShapesSpec PupilUtilSpec PupilFitSpec.
From Verif.Proofs Require Import FitsP MaskGenEx FitShapesEx PupilFitQ PupilFitO PupilFitZ PupilFitEx.
Import ListNotations.
Open Scope list_scope.
Open Scope Z_scope.

(** ** fit_unmasked_pupil: result (x, y, clocking, diameter) *)

(** The diameter is the longer axis of the ellipse fitted to the thresholded pupil; the offsets add to the ellipse's
    rounded centre the shift found by comparing Fourier coefficients with the reference at that diameter; the clocking
    is the vertex fitted to the numbers of agreeing pixels with the padded reference turned by each trial angle. The
    reference for the offsets is turned by rotRef and flipped as asked; the one for the clocking is not. *)
Theorem C77_value : forall contours cv lstsq1 lstsq rotate spline fuel rnd pupil p x y c d,
  is_lstsq_oracle lstsq1 -> is_lstsq_oracle lstsq -> wf (p_maskRef p) ->
  fit_unmasked_pupil contours cv lstsq1 lstsq rotate spline fuel rnd pupil p = Some (Ok (x, y, c, d)) ->
  exists m xc yc ref maskPad sx sy count, ampthresh pupil 21 = Ok m /\
    fit_ellipse contours cv (zero_one_of m) (p_nIterDilateErode p) (p_padFactor p) = Ok (d, xc, yc) /\
    rotate_shift_downsample rotate spline (p_maskRef p) (p_rotRef p) (d / p_diamHighRes p) 0 0 (p_padFacRef p) (p_flipxRef p) = Ok ref /\
    lateral_search (misfit (p_nPadFFT p) (p_nFocusCrop p) (window (zero_one_of m) (p_nPadFFT p) (ZnearestE yc) (ZnearestE xc))
        (window ref (p_nPadFFT p) 0 0)) (p_nPhaseSteps p) (p_nIterOffsets p) (p_dPixel p) sx sy /\
    x = (IZR (ZnearestE xc) + sx)%R /\ y = (IZR (ZnearestE yc) + sy)%R /\
    padded (p_maskRef p) (p_zeroPadding p) maskPad /\
    (forall i, 0 <= i < p_nClock p -> agreement rotate spline m d maskPad (p_diamHighRes p) x y (p_percentile p) (p_deltaAmpMax p)
      (clock_angle (p_clockDegMax p) (p_nClock p) i) (count i)) /\
    clock_estimate (p_clockDegMax p) (p_nClock p) count c.
Proof. exact fit_ok. Qed.
Print Assumptions C77_value.
(** Only the thresholded pupil matters. *)
Theorem C77_mask_only : forall contours cv lstsq1 lstsq rotate spline fuel rnd pupil pupil' p m m' r, wf (p_maskRef p) ->
  (forall b b', aeq b b' -> contours b = contours b') -> ampthresh pupil 21 = Ok m -> ampthresh pupil' 21 = Ok m' -> aeq m m' ->
  fit_unmasked_pupil contours cv lstsq1 lstsq rotate spline fuel rnd pupil p = Some (Ok r) ->
  fit_unmasked_pupil contours cv lstsq1 lstsq rotate spline fuel rnd pupil' p = Some (Ok r).
Proof. exact fit_mask_only. Qed.
Print Assumptions C77_mask_only.
(** Neither the exposure nor a uniform background changes the result. *)
Theorem C77_brightness : forall contours cv lstsq1 lstsq rotate spline fuel rnd pupil p s o r, wf (p_maskRef p) ->
  (forall b b', aeq b b' -> contours b = contours b') -> (0 < s)%R ->
  fit_unmasked_pupil contours cv lstsq1 lstsq rotate spline fuel rnd pupil p = Some (Ok r) ->
  fit_unmasked_pupil contours cv lstsq1 lstsq rotate spline fuel rnd (amap (fun v => s * v + o)%R pupil) p = Some (Ok r).
Proof. exact fit_brightness. Qed.
Print Assumptions C77_brightness.
(** A pupil moved by whole pixels: the same diameter, and offsets moved by as much. A centre half-way between two
    pixels is rounded to even, so that needs an even move. *)
Theorem C77_translation : forall contours cv lstsq1 lstsq rotate spline fuel rnd pupil pupil' p m m' N dy dx x y c d xc yc x' y' c' d',
  wf (p_maskRef p) -> follow_translations contours cv -> 0 <= p_nIterDilateErode p ->
  ampthresh pupil 21 = Ok m -> ampthresh pupil' 21 = Ok m' -> moved dy dx m m' ->
  round_up (p_padFactor p * IZR (Z.max (nr pupil) (nc pupil))) N -> pads (p_nIterDilateErode p) N pupil ->
  fit_ellipse contours cv (zero_one_of m) (p_nIterDilateErode p) (p_padFactor p) = Ok (d, xc, yc) ->
  no_tie xc \/ Z.Even dx -> no_tie yc \/ Z.Even dy ->
  fit_unmasked_pupil contours cv lstsq1 lstsq rotate spline fuel rnd pupil p = Some (Ok (x, y, c, d)) ->
  fit_unmasked_pupil contours cv lstsq1 lstsq rotate spline fuel rnd pupil' p = Some (Ok (x', y', c', d')) ->
  d' = d /\ x' = (x + IZR dx)%R /\ y' = (y + IZR dy)%R.
Proof. exact fit_translation. Qed.
Print Assumptions C77_translation.
(** A pupil that is, in the cropped window, the reference moved by (dy, dx) from the rounded centre of the ellipse: the
    offsets are exact if that move is one of the trial shifts. *)
Theorem C77_exact_offsets : forall contours cv lstsq1 lstsq rotate spline fuel rnd pupil p x y c d m xc yc ref dy dx,
  is_lstsq_oracle lstsq -> wf (p_maskRef p) ->
  fit_unmasked_pupil contours cv lstsq1 lstsq rotate spline fuel rnd pupil p = Some (Ok (x, y, c, d)) ->
  ampthresh pupil 21 = Ok m -> fit_ellipse contours cv (zero_one_of m) (p_nIterDilateErode p) (p_padFactor p) = Ok (d, xc, yc) ->
  rotate_shift_downsample rotate spline (p_maskRef p) (p_rotRef p) (d / p_diamHighRes p) 0 0 (p_padFacRef p) (p_flipxRef p) = Ok ref ->
  2 <= p_nPhaseSteps p -> 2 <= p_nPadFFT p -> p_nPadFFT p mod 2 = 0 -> 2 <= p_nFocusCrop p -> 2 <= p_nIterOffsets p ->
  window_shift (p_nPadFFT p) (window ref (p_nPadFFT p) 0 0) dy dx (window (zero_one_of m) (p_nPadFFT p) (ZnearestE yc) (ZnearestE xc)) ->
  spectrum (p_nPadFFT p) (window ref (p_nPadFFT p) 0 0) 0 (-1) <> RtoC 0 -> spectrum (p_nPadFFT p) (window ref (p_nPadFFT p) 0 0) (-1) 0 <> RtoC 0 ->
  (exists i j, 0 <= i < p_nPhaseSteps p /\ 0 <= j < p_nPhaseSteps p /\ trial (p_nPhaseSteps p) (p_dPixel p) 0 j = IZR dx /\
    trial (p_nPhaseSteps p) (p_dPixel p) 0 i = IZR dy) ->
  (IZR (p_nPhaseSteps p - 1) * p_dPixel p < IZR (p_nPadFFT p))%R ->
  x = IZR (ZnearestE xc + dx) /\ y = IZR (ZnearestE yc + dy).
Proof. exact fit_recovers_shift. Qed.
Print Assumptions C77_exact_offsets.
(** The clocking does not depend on rotRef, flipxRef or padFacRef other than through the offsets and the diameter. *)
Theorem C77_clocking_ignores_orientation : forall contours cv lstsq1 lstsq rotate spline fuel rnd pupil p p' x y c c' d,
  p_maskRef p' = p_maskRef p -> p_zeroPadding p' = p_zeroPadding p -> p_diamHighRes p' = p_diamHighRes p ->
  p_clockDegMax p' = p_clockDegMax p -> p_nClock p' = p_nClock p -> p_percentile p' = p_percentile p -> p_deltaAmpMax p' = p_deltaAmpMax p ->
  fit_unmasked_pupil contours cv lstsq1 lstsq rotate spline fuel rnd pupil p = Some (Ok (x, y, c, d)) ->
  fit_unmasked_pupil contours cv lstsq1 lstsq rotate spline fuel rnd pupil p' = Some (Ok (x, y, c', d)) -> c' = c.
Proof. exact fit_clock_same. Qed.
Print Assumptions C77_clocking_ignores_orientation.
Theorem C77_terminates : forall contours cv lstsq1 lstsq rotate spline fuel rnd pupil p,
  fit_unmasked_pupil contours cv lstsq1 lstsq rotate spline fuel rnd pupil p <> None.
Proof. exact fit_terminates. Qed.
Print Assumptions C77_terminates.
Theorem C77_rejections : forall contours cv lstsq1 lstsq rotate spline fuel rnd pupil p,
  p_nIterOffsets p <= 0 \/ p_nPadFFT p <= 0 \/ p_nFocusCrop p <= 0 \/ p_nPhaseSteps p <= 0 \/ p_nClock p <= 0 \/
  (p_dPixel p <= 0 \/ p_clockDegMax p <= 0 \/ p_diamHighRes p <= 0 \/ p_padFacRef p <= 0 \/ p_deltaAmpMax p < 0 \/ p_percentile p <= 0 \/ p_zeroPadding p < 0)%R ->
  fit_unmasked_pupil contours cv lstsq1 lstsq rotate spline fuel rnd pupil p = Some (Err TypeError).
Proof. exact fit_rejects. Qed.
Print Assumptions C77_rejections.
(** A pupil of two pixels on a diagonal of a 7 by 7 image, one column to the right of the reference: offset 1. *)
Example C77_example : forall lstsq1 lstsq fuel rnd, is_lstsq_oracle lstsq -> exists c m xc yc ref,
  wf (p_maskRef tuning7) /\ fit_unmasked_pupil box_contours box_ellipse lstsq1 lstsq rotate_ref spline_ref fuel rnd (diag 7 0 0) tuning7 = Some (Ok (1, 0, c, 1)%R) /\
  ampthresh (diag 7 0 0) 21 = Ok m /\ fit_ellipse box_contours box_ellipse (zero_one_of m) 0 1 = Ok (1%R, xc, yc) /\ ZnearestE xc = 0 /\ ZnearestE yc = 0 /\
  rotate_shift_downsample rotate_ref spline_ref (diag 7 0 (-1)) 0 (1 / 1) 0 0 1 false = Ok ref /\
  window_shift 4 (window ref 4 0 0) 0 1 (window (zero_one_of m) 4 (ZnearestE yc) (ZnearestE xc)) /\
  spectrum 4 (window ref 4 0 0) 0 (-1) <> RtoC 0 /\ spectrum 4 (window ref 4 0 0) (-1) 0 <> RtoC 0 /\
  (exists i j, 0 <= i < 3 /\ 0 <= j < 3 /\ trial 3 1 0 j = IZR 1 /\ trial 3 1 0 i = IZR 0).
Proof. exact recover_case. Qed.
(** The same pupil two columns further to the right: offset 3. *)
Example C77_example_moved : forall lstsq1 lstsq fuel rnd, is_lstsq_oracle lstsq -> exists m m' xc yc c c',
  wf (p_maskRef tuning7) /\ follow_translations box_contours box_ellipse /\ ampthresh (diag 7 0 0) 21 = Ok m /\ ampthresh (diag 7 0 2) 21 = Ok m' /\
  moved 0 2 m m' /\ round_up (1 * IZR (Z.max (nr (diag 7 0 0)) (nc (diag 7 0 0)))) 7 /\ pads 0 7 (diag 7 0 0) /\
  fit_ellipse box_contours box_ellipse (zero_one_of m) 0 1 = Ok (1%R, xc, yc) /\ Z.Even 2 /\ Z.Even 0 /\
  fit_unmasked_pupil box_contours box_ellipse lstsq1 lstsq rotate_ref spline_ref fuel rnd (diag 7 0 0) tuning7 = Some (Ok (1, 0, c, 1)%R) /\
  fit_unmasked_pupil box_contours box_ellipse lstsq1 lstsq rotate_ref spline_ref fuel rnd (diag 7 0 2) tuning7 = Some (Ok (3, 0, c', 1)%R).
Proof. exact translation_case. Qed.
Example C77_example_contours : forall b b', aeq b b' -> box_contours b = box_contours b'.
Proof. exact box_contours_aeq. Qed.

(** ** fit_unmasked_pupil_old: result (x, y, clocking, diameter) *)

(** The diameter is the nominal one times the square root of the ratio of the areas. *)
Theorem C78_value : forall lstsq1 lstsq rotate spline fuel rnd pupil p x y c d,
  is_lstsq_oracle lstsq1 -> is_lstsq_oracle lstsq -> wf (q_maskHigh p) ->
  fit_unmasked_pupil_old lstsq1 lstsq rotate spline fuel rnd pupil p = Some (Ok (x, y, c, d)) ->
  exists sM sR m xc yc ref maskPad sx sy mA count,
    area (amap Rabs pupil) (q_percentile p) sM /\ area (amap Rabs (q_maskNom p)) (q_percentile p) sR /\ d = (q_nBeamNom p * sqrt (sM / sR))%R /\
    ampthresh pupil (q_nBin p) = Ok m /\ coarsely_locate_pupil_offset fuel rnd (zero_one_of m) d 3 = Some (Ok (xc, yc)) /\
    rotate_shift_downsample rotate spline (q_maskHigh p) 0 (d / q_diamHighRes p) 0 0 (12 / 10) false = Ok ref /\
    lateral_search (misfit (q_nPadFFT p) (q_nFocusCrop p) (window (zero_one_of m) (q_nPadFFT p) yc xc) (window ref (q_nPadFFT p) 0 0))
      (q_nPhaseSteps p) 1 (q_dPixel p) sx sy /\
    x = (IZR xc + sx)%R /\ y = (IZR yc + sy)%R /\
    padded (q_maskHigh p) (q_zeroPadding p) maskPad /\
    ampthresh (amap (fun u => u ^ 2)%R (amap Rabs pupil)) 21 = Ok mA /\
    (forall i, 0 <= i < q_nClock p -> overlap rotate spline (amap Rabs pupil) d maskPad (q_diamHighRes p) x y (q_percentile p) (q_deltaAmpMax p) false mA
      (clock_angle (q_clockDegMax p) (q_nClock p) i) (count i)) /\
    clock_estimate (q_clockDegMax p) (q_nClock p) count c.
Proof. exact old_ok. Qed.
Print Assumptions C78_value.
Theorem C78_brightness : forall lstsq1 lstsq rotate spline fuel rnd pupil p s r, wf (q_maskHigh p) -> (0 < s)%R ->
  fit_unmasked_pupil_old lstsq1 lstsq rotate spline fuel rnd pupil p = Some (Ok r) ->
  fit_unmasked_pupil_old lstsq1 lstsq rotate spline fuel rnd (amap (fun v => s * v)%R pupil) p = Some (Ok r).
Proof. exact old_scale. Qed.
Print Assumptions C78_brightness.
(** The nominal pupil, however bright, has the nominal diameter. *)
Theorem C78_nominal : forall lstsq1 lstsq rotate spline fuel rnd pupil p s x y c d, (0 < s)%R ->
  aeq (amap Rabs pupil) (amap (fun v => s * v)%R (amap Rabs (q_maskNom p))) ->
  fit_unmasked_pupil_old lstsq1 lstsq rotate spline fuel rnd pupil p = Some (Ok (x, y, c, d)) -> d = q_nBeamNom p.
Proof. exact old_self. Qed.
Print Assumptions C78_nominal.
(** For masks of zeros and ones the areas are numbers of pixels. *)
Theorem C78_pixel_counts : forall lstsq1 lstsq rotate spline fuel rnd pupil p x y c d, zero_one_image pupil -> zero_one_image (q_maskNom p) ->
  fit_unmasked_pupil_old lstsq1 lstsq rotate spline fuel rnd pupil p = Some (Ok (x, y, c, d)) ->
  exists nM nR, counts (nr pupil) (nc pupil) (fun i j => at2 pupil i j = 1%R) nM /\
    counts (nr (q_maskNom p)) (nc (q_maskNom p)) (fun i j => at2 (q_maskNom p) i j = 1%R) nR /\ d = (q_nBeamNom p * sqrt (nM / nR))%R.
Proof. exact old_binary. Qed.
Print Assumptions C78_pixel_counts.
Theorem C78_rejections : forall lstsq1 lstsq rotate spline fuel rnd pupil p,
  (q_deltaAmpMax p < 0 \/ q_percentile p <= 0 \/ q_zeroPadding p < 0)%R ->
  fit_unmasked_pupil_old lstsq1 lstsq rotate spline fuel rnd pupil p = Some (Err TypeError).
Proof. exact old_rejects. Qed.
Print Assumptions C78_rejections.
(** The pupil is its own nominal mask; the high-resolution mask is one pixel down and to the right. *)
Example C78_example : forall lstsq1 lstsq, is_lstsq_oracle lstsq -> wf (q_maskHigh old7) /\ zero_one_image (diag 7 0 0) /\
  exists c, fit_unmasked_pupil_old lstsq1 lstsq rotate_ref spline_ref 1 (fun x => x) (diag 7 0 0) old7 = Some (Ok (-1, -1, c, 1)%R).
Proof. exact old_case. Qed.

(** ** fit_pupil_zernikes *)

(** What a call returns: the mask, the pupil's place and size, the coefficients of modes 1 to max(3, Z_noll_max) and the
    map less those modes, and less the first three, on the mask. Missing: maps that are not square, on which the
    function always fails, and side 1000000. *)
Theorem C79_value_partial : forall fit lstsq wfe amp b n sel z, is_lstsq_oracle lstsq -> nc wfe = nr wfe -> 0 < nr wfe -> nr wfe <> 1000000 ->
  fit_pupil_zernikes fit lstsq wfe amp b n sel = Ok z ->
  (exists c, fit amp = Ok (z_x z, z_y z, c, z_diam z)) /\ fitted_mask amp b sel (z_mask z) /\ zero_one (z_mask z) /\
  nr (z_mask z) = nr wfe /\ nc (z_mask z) = nc wfe /\ vlen (z_coefs z) = Z.max 3 n /\
  nr (z_res z) = nr wfe /\ nc (z_res z) = nc wfe /\ nr (z_res_ptt z) = nr wfe /\ nc (z_res_ptt z) = nc wfe /\
  forall Zf, is_mode_fun (z_diam z / 2) Zf ->
    (forall r c, in_arr wfe r c -> at2 (z_res z) r c = (at2 wfe r c - at2 (z_mask z) r c * mode_comb (Z.max 3 n) Zf (z_x z) (z_y z) wfe (vat (z_coefs z)) r c)%R) /\
    (forall r c, in_arr wfe r c -> at2 (z_res_ptt z) r c = (at2 wfe r c - at2 (z_mask z) r c * mode_comb 3 Zf (z_x z) (z_y z) wfe (vat (z_coefs z)) r c)%R).
Proof. exact pz_value. Qed.
Print Assumptions C79_value_partial.
(** The coefficients are the least-squares ones over the mask. *)
Theorem C79_least_squares_partial : forall fit lstsq, is_lstsq_oracle lstsq -> forall wfe amp b n sel z Zf, nc wfe = nr wfe -> 0 < nr wfe -> nr wfe <> 1000000 ->
  fit_pupil_zernikes fit lstsq wfe amp b n sel = Ok z -> is_mode_fun (z_diam z / 2) Zf ->
  (forall k, 0 <= k < Z.max 3 n -> usable_sum (z_mask z) (fun r c => mode_at Zf (z_x z) (z_y z) wfe (k + 1) r c * at2 (z_res z) r c)%R = 0%R) /\
  (forall a, (usable_sum (z_mask z) (fun r c => at2 (z_res z) r c ^ 2) <=
              usable_sum (z_mask z) (fun r c => (at2 wfe r c - mode_comb (Z.max 3 n) Zf (z_x z) (z_y z) wfe a r c) ^ 2))%R).
Proof. exact pz_lsq. Qed.
Print Assumptions C79_least_squares_partial.
Theorem C79_residuals_shrink_partial : forall fit lstsq, is_lstsq_oracle lstsq -> forall wfe amp b n sel z, nc wfe = nr wfe -> 0 < nr wfe -> nr wfe <> 1000000 ->
  fit_pupil_zernikes fit lstsq wfe amp b n sel = Ok z ->
  (usable_sum (z_mask z) (fun r c => at2 (z_res z) r c ^ 2) <= usable_sum (z_mask z) (fun r c => at2 (z_res_ptt z) r c ^ 2))%R /\
  (usable_sum (z_mask z) (fun r c => at2 (z_res z) r c ^ 2) <= usable_sum (z_mask z) (fun r c => at2 wfe r c ^ 2))%R.
Proof. exact pz_smaller. Qed.
Print Assumptions C79_residuals_shrink_partial.
(** Scaling the map and adding modes to it acts in the same way on the coefficients. *)
Theorem C79_affine_partial : forall fit lstsq, is_lstsq_oracle lstsq -> forall wfe wfe' amp b n sel z z' s a Zf,
  nc wfe = nr wfe -> 0 < nr wfe -> nr wfe <> 1000000 -> nr wfe' = nr wfe -> nc wfe' = nc wfe ->
  fit_pupil_zernikes fit lstsq wfe amp b n sel = Ok z -> fit_pupil_zernikes fit lstsq wfe' amp b n sel = Ok z' -> is_mode_fun (z_diam z / 2) Zf ->
  modes_independent (Z.max 3 n) Zf (z_x z) (z_y z) wfe (z_mask z) ->
  (forall r c, used (z_mask z) r c -> at2 wfe' r c = (s * at2 wfe r c + mode_comb (Z.max 3 n) Zf (z_x z) (z_y z) wfe a r c)%R) ->
  forall k, 0 <= k < Z.max 3 n -> vat (z_coefs z') k = (s * vat (z_coefs z) k + a k)%R.
Proof. exact pz_affine. Qed.
Print Assumptions C79_affine_partial.
(** A map made of modes: their coefficients, and nothing left. *)
Theorem C79_recovers_modes_partial : forall fit lstsq, is_lstsq_oracle lstsq -> forall wfe amp b n sel z a Zf,
  nc wfe = nr wfe -> 0 < nr wfe -> nr wfe <> 1000000 -> fit_pupil_zernikes fit lstsq wfe amp b n sel = Ok z -> is_mode_fun (z_diam z / 2) Zf ->
  modes_independent (Z.max 3 n) Zf (z_x z) (z_y z) wfe (z_mask z) ->
  (forall r c, used (z_mask z) r c -> at2 wfe r c = mode_comb (Z.max 3 n) Zf (z_x z) (z_y z) wfe a r c) ->
  (forall k, 0 <= k < Z.max 3 n -> vat (z_coefs z) k = a k) /\ (forall r c, used (z_mask z) r c -> at2 (z_res z) r c = 0%R).
Proof. exact pz_recovers. Qed.
Print Assumptions C79_recovers_modes_partial.
(** Fitting what is left over finds nothing more. *)
Theorem C79_nothing_left_partial : forall fit lstsq, is_lstsq_oracle lstsq -> forall wfe amp b n sel z z' Zf,
  nc wfe = nr wfe -> 0 < nr wfe -> nr wfe <> 1000000 -> fit_pupil_zernikes fit lstsq wfe amp b n sel = Ok z -> is_mode_fun (z_diam z / 2) Zf ->
  modes_independent (Z.max 3 n) Zf (z_x z) (z_y z) wfe (z_mask z) ->
  fit_pupil_zernikes fit lstsq (z_res z) amp (Some (z_mask z)) n sel = Ok z' ->
  forall k, 0 <= k < Z.max 3 n -> vat (z_coefs z') k = 0%R.
Proof. exact pz_again. Qed.
Print Assumptions C79_nothing_left_partial.
(** A given mask of the map's shape, or a thresholded amplitude of that shape, is enough. *)
Theorem C79_defined_partial : forall fit lstsq wfe amp n x y c d, nc wfe = nr wfe -> 0 < nr wfe -> nr wfe <> 1000000 -> 0 < n ->
  fit amp = Ok (x, y, c, d) -> (0 < d)%R ->
  (forall b sel, zero_one b -> nr b = nr wfe -> nc b = nc wfe -> exists z, fit_pupil_zernikes fit lstsq wfe amp (Some b) n sel = Ok z) /\
  (forall t, ampthresh amp 21 = Ok t -> nr t = nr wfe -> nc t = nc wfe -> exists z, fit_pupil_zernikes fit lstsq wfe amp None n None = Ok z).
Proof. exact pz_defined. Qed.
Print Assumptions C79_defined_partial.
(** The default kernel erodes the thresholded amplitude by one pixel: a pixel is used when it and its four neighbours are
    bright, those outside the array counting as dark. *)
Theorem C79_default_erosion_partial : forall fit lstsq wfe amp n z, is_lstsq_oracle lstsq -> nc wfe = nr wfe -> 0 < nr wfe -> nr wfe <> 1000000 ->
  fit_pupil_zernikes fit lstsq wfe amp None n (Some pupil_selem) = Ok z ->
  exists t, ampthresh amp 21 = Ok t /\ nr t = nr wfe /\ nc t = nc wfe /\ forall r c, in_arr wfe r c ->
    (at2 (z_mask z) r c = 1%R <-> forall a b, Z.abs (a - r) + Z.abs (b - c) <= 1 -> in_arr t a b /\ at2 t a b = true) /\
    (at2 (z_mask z) r c = 0%R \/ at2 (z_mask z) r c = 1%R).
Proof. exact pz_default_mask. Qed.
Print Assumptions C79_default_erosion_partial.
(** A pupil of a pixel and its four neighbours leaves that pixel. *)
Example C79_default_example : forall lstsq wfe, is_lstsq_oracle lstsq -> nr wfe = 7 -> nc wfe = 7 ->
  exists z, fit_pupil_zernikes (fun _ => Ok (0, 0, 0, 1)%R) lstsq wfe plus7 None 3 (Some pupil_selem) = Ok z /\
    at2 (z_mask z) 3 3 = 1%R /\ at2 (z_mask z) 3 4 = 0%R.
Proof. exact plus7_eroded. Qed.
(** The documented 2-D map must in fact be square. *)
Theorem C79_any_map_refuted : forall fit lstsq wfe amp b n sel, 1 < nr wfe -> 1 < nc wfe -> nr wfe <> nc wfe -> nr wfe <> 1000000 ->
  forall z, fit_pupil_zernikes fit lstsq wfe amp b n sel <> Ok z.
Proof. exact pz_oblong. Qed.
Print Assumptions C79_any_map_refuted.
(** Such a map raises ValueError when everything else is as documented. *)
Theorem C79_oblong_error : forall fit lstsq wfe amp b n sel x y c d, 1 < nr wfe -> 1 < nc wfe -> nr wfe <> nc wfe -> nr wfe <> 1000000 -> 0 < n ->
  fit amp = Ok (x, y, c, d) -> (0 < d)%R -> zero_one b -> nr b = nr wfe -> nc b = nc wfe ->
  fit_pupil_zernikes fit lstsq wfe amp (Some b) n sel = Err ValueError.
Proof. exact pz_oblong_error. Qed.
Print Assumptions C79_oblong_error.
Theorem C79_rejections : forall fit lstsq wfe amp n sel,
  (forall b, n <= 0 -> fit_pupil_zernikes fit lstsq wfe amp b n sel = Err TypeError) /\
  (forall b, (exists r c, in_arr b r c /\ at2 b r c <> 0%R /\ at2 b r c <> 1%R) -> fit_pupil_zernikes fit lstsq wfe amp (Some b) n sel = Err TypeError) /\
  (forall b e, zero_one b -> 0 < n -> fit amp = Err e -> fit_pupil_zernikes fit lstsq wfe amp (Some b) n sel = Err e) /\
  (forall e, 0 < n -> fit amp = Err e -> fit_pupil_zernikes fit lstsq wfe amp None n sel = Err e) /\
  (forall b r, zero_one b -> 0 < n -> fit amp = Ok r -> nr b <> nr wfe \/ nc b <> nc wfe ->
     fit_pupil_zernikes fit lstsq wfe amp (Some b) n sel = Err ValueError).
Proof. exact pz_rejections. Qed.
Print Assumptions C79_rejections.
(** Any 7 by 7 map, with the pupil of C77_example and the whole array as the mask. *)
Example C79_example : forall lstsq1 lstsq wfe, is_lstsq_oracle lstsq -> nr wfe = 7 -> nc wfe = 7 ->
  exists z, fit_pupil_zernikes (fit7 lstsq1 lstsq) lstsq wfe (diag 7 0 0) (Some ones7) 3 None = Ok z /\ z_diam z = 1%R /\ z_x z = IZR (0 + 1) /\ z_y z = 0%R /\
    z_mask z = ones7.
Proof. exact zernikes7. Qed.
Example C79_example_modes : forall Zf wfe, is_mode_fun (1 / 2) Zf -> nr wfe = 7 -> nc wfe = 7 -> modes_independent 3 Zf (IZR (0 + 1)) 0 wfe ones7.
Proof. exact ones7_independent. Qed.
