(** Model of coralign/pupil/maskfit.py. The parsed YAML files and the FITS file are arguments, already of the types
    the functions they reach ask for; images hold finite reals; debug plots are left out. *)
From Coq Require Import ZArith Bool List Reals String.
From Flocq Require Import Core.
From Verif.Base Require Import Py Arr Vec Sums Lstsq.
From Verif.Model Require Import Yaml Noll Fits Shapes Math PadCrop PsfFit MaskGen PupilUtil Unwrap PupilFit.
Import ListNotations.
Open Scope Z_scope.

(** ** fit_pupil_mask_offsets *)

(** maskfit.py:207-213 and 217-219 ([m_maskRef] is the content of fnMaskRefHighRes). *)
Record mask_tuning := {
  m_nPadFFT : Z; m_nFocusCrop : Z; m_nPhaseSteps : Z; m_dPixel : R; m_nIterOuter : Z; m_nIterInner : Z; m_percentile : R;
  m_maskRef : arr R; m_diamHighRes : R }.
(** image/factor with negative values set to zero (225-226, 232-233). Simplified: after a division by zero the code
    goes on with inf and nan; here that is an exception. *)
Definition not_finite : exn := Custom "not finite".
Definition scaled_image (image : arr R) (factor : R) : res (arr R) :=
  if Req_EM_T factor 0 then Err not_finite
  else Ok (amap (fun v => if Rltb (v / factor) 0 then 0 else v / factor)%R image).
(** maskfit.py:222-227 and 229-234 *)
Definition normalized_amplitude (image : arr R) (q : R) : res (arr R) :=
  do m <- ampthresh image 21;
  do f <- compute_norm_factor image (amap of_bool m) q;                     (* 222-224, 229-231 *)
  do s <- scaled_image image f;
  Ok (amap sqrt s).                                                         (* 227, 234 *)
(** maskfit.py:244-269: one pass from the estimate (x, y). compute_lateral_offsets does not use [fuel] and [rnd] here. *)
Definition offset_pass (lstsq : lstsq_fun) (rotate : rotate_fun) (spline : bispline_fun) (fuel : nat) (rnd : R -> R)
    (ampUnmasked ampMasked : arr R) (offsetGain : R) (p : mask_tuning) (xPupil yPupil diamPupil magAtMask clockDeg : R)
    (x y : R) : option (res (R * R)) :=
  obind (Some (
    do r <- rotate_shift_downsample rotate spline (m_maskRef p) clockDeg (diamPupil * magAtMask / m_diamHighRes p)
              (x + xPupil) (y + yPupil) (12 / 10) false;                    (* 244-247 *)
    do maskRef <- pad_crop r [nr ampUnmasked; nc ampUnmasked] 0%R;          (* 248 *)
    let arraySim := amap2 Rmult ampUnmasked maskRef in                      (* 249 *)
    let xCenter := IZR (nc ampUnmasked / 2 + ZnearestE xPupil) in           (* 252, 254 *)
    let yCenter := IZR (nr ampUnmasked / 2 + ZnearestE yPupil) in           (* 253, 255 *)
    do meas <- offcenter_crop 0%R ampMasked (m_nPadFFT p) yCenter xCenter;  (* 256-257 *)
    do sim <- offcenter_crop 0%R arraySim (m_nPadFFT p) yCenter xCenter;    (* 258-259 *)
    Ok (meas, sim))) (fun ms =>
  obind (compute_lateral_offsets lstsq fuel rnd (fst ms) (snd ms) diamPupil (m_nPhaseSteps p) (m_dPixel p) (m_nPadFFT p)
           (m_nFocusCrop p) (m_nIterInner p) false 0 0) (fun d =>           (* 264-267 *)
  Some (Ok (x + offsetGain * snd d, y + offsetGain * fst d)%R))).           (* 268-269 *)
Fixpoint offset_passes (step : R -> R -> option (res (R * R))) (n : nat) (x y : R) : option (res (R * R)) :=
  match n with
  | O => Some (Ok (x, y))
  | S n' => obind (step x y) (fun s => offset_passes step n' (fst s) (snd s))   (* 242 *)
  end.
(** maskfit.py:136-271, returning (xOffsetEst, yOffsetEst). *)
Definition fit_pupil_mask_offsets (lstsq : lstsq_fun) (rotate : rotate_fun) (spline : bispline_fun) (fuel : nat) (rnd : R -> R)
    (imageUnmasked imageMasked : arr R) (offsetGain : R) (p : mask_tuning) (xPupil yPupil diamPupil magAtMask clockDeg : R)
  : option (res (R * R)) :=
  obind (Some (
    check same_shape imageUnmasked imageMasked else ValueError;             (* 188-189 *)
    check Rltb 0 offsetGain else TypeError;                                 (* 190 *)
    check Rltb 0 diamPupil else TypeError;                                  (* 195 *)
    check Rltb 0 magAtMask else TypeError;                                  (* 196 *)
    do u <- normalized_amplitude imageUnmasked (m_percentile p);
    do m <- normalized_amplitude imageMasked (m_percentile p);
    Ok (u, m))) (fun um =>
  offset_passes (offset_pass lstsq rotate spline fuel rnd (fst um) (snd um) offsetGain p xPupil yPupil diamPupil magAtMask clockDeg)
    (Z.to_nat (m_nIterOuter p)) 0 0).                                       (* 240-242, 271 *)

(** ** fit_shaped_pupil_mask_offsets *)

(** maskfit.py:30-133. [shift] is scipy.ndimage.shift(image, [dy, dx]), an array of the shape of the image. *)
Definition fit_shaped_pupil_mask_offsets (shift : arr R -> R -> R -> arr R) (lstsq : lstsq_fun) (rotate : rotate_fun)
    (spline : bispline_fun) (fuel : nat) (rnd : R -> R) (imageUnmasked imageMasked : arr R) (offsetGain : R) (p : mask_tuning)
    (xPupil yPupil diamPupil magAtMask clockDeg xSPM ySPM : R) : option (res (R * R)) :=
  obind (Some (
    check same_shape imageUnmasked imageMasked else ValueError;             (* 101-102 *)
    check Rltb 0 offsetGain else TypeError;                                 (* 103 *)
    check Rltb 0 diamPupil else TypeError;                                  (* 108 *)
    check Rltb 0 magAtMask else TypeError;                                  (* 109 *)
    Ok tt)) (fun _ =>
  fit_pupil_mask_offsets lstsq rotate spline fuel rnd (shift imageUnmasked ySPM xSPM) imageMasked offsetGain p
    (xPupil + xSPM) (yPupil + ySPM) diamPupil magAtMask clockDeg).          (* 118-131 *)

(** ** fit_z_induced_spm_shear *)

(** maskfit.py:358-360 and 362-364: the flattened difference of the phases and its mask. *)
Definition poke_map (lstsq : lstsq_fun) (up : unwrap_fun) (small : small_fun) (amp phUnpoked phPoked : arr R)
  : res (arr R * arr bool) :=
  do d <- broadcast Rminus phPoked phUnpoked;                               (* 358, 362 *)
  do um <- unwrap up small d amp 21 0 64 true None;                         (* 359, 363 *)
  do f <- remove_piston_tip_tilt lstsq (fst um) (amap of_bool (snd um));    (* 360, 364 *)
  Ok (f, snd um).
(** maskfit.py:274-372, returning (xOffset, yOffset). The last shape check compares with the first amplitude (348). *)
Definition fit_z_induced_spm_shear (shift : arr R -> R -> R -> arr R) (lstsq : lstsq_fun) (up : unwrap_fun) (small : small_fun)
    (ampUnpoked0 phUnpoked0 phPoked0 ampUnpoked1 phUnpoked1 phPoked1 : arr R) (config : yval) : res (R * R) :=
  check same_shape phUnpoked0 ampUnpoked0 else ValueError;                  (* 341-342 *)
  check same_shape phPoked0 ampUnpoked0 else ValueError;                    (* 343-344 *)
  check same_shape phUnpoked1 ampUnpoked1 else ValueError;                  (* 346-347 *)
  check same_shape phPoked1 ampUnpoked0 else ValueError;                    (* 348-349 *)
  do d0 <- poke_map lstsq up small ampUnpoked0 phUnpoked0 phPoked0;
  do d1 <- poke_map lstsq up small ampUnpoked1 phUnpoked1 phPoked1;
  let shape0 := [nr ampUnpoked0; nc ampUnpoked0] in
  do p1 <- pad_crop (fst d1) shape0 0%R;                                    (* 365 *)
  do m1 <- pad_crop (snd d1) shape0 false;                                  (* 366 *)
  let masked p m := amap2 Rmult (amap of_bool m) p in
  do r <- psffit shift (masked (fst d0) (snd d0)) (masked p1 m1) config;    (* 368 *)
  Ok (snd (fst r), fst (fst r)).                                            (* 369-372 *)

(** ** fit_lyot_stop_mag_clocking *)

(** maskfit.py:462-469, 485-487 and 490-494 ([l_maskRef] is the content of fnMaskRefHighRes). *)
Record lyot_tuning := {
  l_clockMaxDeg : R; l_nClock : Z; l_deltaAmpMax : R; l_diamPupil : R; l_magShrinkFac : R; l_deltaMag : R; l_nMag : Z; l_nIterMag : Z;
  l_diamHighRes : R; l_maskRef : arr R; l_OD : R;
  l_nPadFFT : Z; l_nFocusCrop : Z; l_nPhaseSteps : Z; l_dPixel : R; l_percentile : R }.
(** maskfit.py:470-481 *)
Definition check_lyot (p : lyot_tuning) : res unit :=
  check Rltb 0 (l_clockMaxDeg p) else TypeError;                            (* 470 *)
  check 0 <? l_nClock p else TypeError;                                     (* 471 *)
  check Rltb 0 (l_deltaAmpMax p) else TypeError;                            (* 472 *)
  check Rltb 0 (l_diamPupil p) else TypeError;                              (* 473 *)
  check negb (Rleb 1 (l_deltaAmpMax p)) else ValueError;                    (* 474-475 *)
  check Rltb 0 (l_magShrinkFac p) else TypeError;                           (* 476 *)
  check negb (Rleb 1 (l_magShrinkFac p)) else ValueError;                   (* 477-478 *)
  check Rltb 0 (l_deltaMag p) else TypeError;                               (* 479 *)
  check 0 <? l_nMag p else TypeError;                                       (* 480 *)
  check 0 <? l_nIterMag p else TypeError;                                   (* 481 *)
  Ok tt.
(** The reference at one magnification in the frame of the images: 525-529, 540-544 and 588-592. *)
Definition lyot_reference (rotate : rotate_fun) (spline : bispline_fun) (shape : arr R) (p : lyot_tuning) (clockDeg mag x y : R)
  : res (arr R) :=
  do r <- rotate_shift_downsample rotate spline (l_maskRef p) clockDeg (mag * l_diamPupil p / l_diamHighRes p) x y (12 / 10) false;
  pad_crop r [nr shape; nc shape] 0%R.
(** maskfit.py:535-537. Simplified: a quotient that is negative or has a zero denominator makes magEst0 inf or nan;
    here that is an exception. *)
Definition first_magnification (imageUnmasked imageMasked ampUnmasked ampMasked maskRef : arr R) : res R :=
  do mm <- ampthresh imageMasked 21;
  do mu <- ampthresh imageUnmasked 21;
  let a := sum_list (select mm ampMasked) in
  let b := sum_list (select mu (amap2 Rmult ampUnmasked maskRef)) in
  if Req_EM_T b 0 then Err not_finite else if Rltb (a / b) 0 then Err not_finite else Ok (sqrt (a / b)).
(** maskfit.py:588-599: the number of pixels where the measured amplitude is close to the normalized square of the
    reference. Dividing by a zero factor gives inf or nan, which compares False. *)
Definition mag_overlap (rotate : rotate_fun) (spline : bispline_fun) (ampMasked : arr R) (p : lyot_tuning) (clockEst x y mag : R)
  : res R :=
  do r <- lyot_reference rotate spline ampMasked p clockEst mag x y;        (* 588-592 *)
  let r2 := amap (fun v => v ^ 2)%R r in                                    (* 593 *)
  do b <- ampthresh r2 21;
  do f <- compute_norm_factor r2 (amap of_bool b) (l_percentile p);         (* 595-596 *)
  Ok (count2 (fun i j => if Req_EM_T f 0 then false else
        Rltb (Rabs (at2 ampMasked i j - at2 r2 i j / f)) (l_deltaAmpMax p)) (nr ampMasked) (nc ampMasked)).   (* 597-599 *)
(** numpy.argmax of a non-empty vector. *)
Definition argmax1 (v : vec R) : Z :=
  fold_left (fun b k => if Rlt_dec (vat v b) (vat v k) then k else b) (zrange (vlen v)) 0.
(** maskfit.py:583-616: one pass from the estimate [mag]. The trial magnifications are positive by then. *)
Definition mag_pass (lstsq : lstsq1_fun) (overlap : R -> res R) (p : lyot_tuning) (k : Z) (mag : R) : res R :=
  let magVec i := (mag + l_magShrinkFac p * Shapes.linspace (- l_deltaMag p) (l_deltaMag p) (l_nMag p) i)%R in   (* 583 *)
  do overlapVec <- fill_vec (fun i => overlap (magVec i)) 0 (Z.to_nat (l_nMag p));   (* 584-599 *)
  if (k =? 0) && (1 <? l_nIterMag p) then                                   (* 602 *)
    Ok (magVec (argmax1 (Vec (l_nMag p) overlapVec)))                       (* 603-604 *)
  else
    let m := fold_right Rmax (overlapVec 0) (map overlapVec (zrange (l_nMag p))) in   (* 611 *)
    let c := lstsq (zrange (l_nMag p)) 3 (fun i k => magVec i ^ Z.to_nat (2 - k))%R (fun i => (overlapVec i - m) ^ 2)%R in   (* 612 *)
    if Req_EM_T (c 0) 0 then Ok 1%R                                         (* 613-614 *)
    else Ok (- c 1%Z / (2 * c 0%Z))%R.                                      (* 616 *)
Fixpoint mag_passes (step : Z -> R -> res R) (n : nat) (k : Z) (mag : R) : res R :=
  match n with
  | O => Ok mag
  | S n' => do m <- step k mag; mag_passes step n' (k + 1) m                (* 582 *)
  end.
(** maskfit.py:375-618, returning (magEst, clockEst). *)
Definition fit_lyot_stop_mag_clocking (lstsq1 : lstsq1_fun) (lstsq : lstsq_fun) (rotate : rotate_fun) (spline : bispline_fun)
    (fuel : nat) (rnd : R -> R) (imageUnmasked imageMasked : arr R) (xPupil yPupil : R) (p : lyot_tuning) : option (res (R * R)) :=
  obind (Some (
    check same_shape imageUnmasked imageMasked else ValueError;             (* 456-457 *)
    do _ <- check_lyot p;
    do b <- ampthresh imageUnmasked 21;
    do f <- compute_norm_factor imageUnmasked (amap of_bool b) (l_percentile p);   (* 508-510 *)
    do u <- scaled_image imageUnmasked f;                                   (* 511-512 *)
    do m <- scaled_image imageMasked f;                                     (* 515-517 *)
    let ampU := amap sqrt u in                                              (* 513 *)
    let ampM := amap sqrt m in                                              (* 518 *)
    do ref0 <- lyot_reference rotate spline u p 0 1 xPupil yPupil;          (* 521-529 *)
    do mag0 <- first_magnification u m ampU ampM ref0;                      (* 535-537 *)
    do ref1 <- lyot_reference rotate spline u p 0 mag0 xPupil yPupil;       (* 540-544 *)
    Ok (ampM, mag0, amap2 Rmult ref1 ampU))) (fun s =>                      (* 545 *)
  let '(ampM, mag0, ampRef1) := s in
  let diamBeam := (mag0 * l_diamPupil p)%R in                               (* 554 *)
  obind (coarsely_locate_pupil_offset fuel rnd ampM (mag0 * l_diamPupil p * l_OD p) 3) (fun o =>   (* 555-556 *)
  let '(x1, y1) := o in
  let n := Z.max (nr ampM) (nc ampM) in
  obind (Some (
    do a <- offcenter_crop 0%R ampM n (IZR (y1 + nr ampM / 2)) (IZR (x1 + nc ampM / 2));   (* 558-560 *)
    do b <- offcenter_crop 0%R ampRef1 n (IZR (y1 + nr ampM / 2)) (IZR (x1 + nc ampM / 2));   (* 561-563 *)
    Ok (a, b))) (fun ab =>
  obind (compute_lateral_offsets lstsq fuel rnd (fst ab) (snd ab) diamBeam (l_nPhaseSteps p) (l_dPixel p) (l_nPadFFT p)
           (l_nFocusCrop p) 2 false 0 0) (fun yx =>                         (* 564-568 *)
  let x := (snd yx + xPupil)%R in
  let y := (fst yx + yPupil)%R in
  Some (
    do clockEst <- compute_clocking lstsq1 rotate spline ampM diamBeam (l_maskRef p) (l_diamHighRes p) x y (l_clockMaxDeg p)
                     (l_nClock p) (l_percentile p) (l_deltaAmpMax p) false; (* 574-577 *)
    do magEst <- mag_passes (mag_pass lstsq1 (mag_overlap rotate spline ampM p clockEst x y) p) (Z.to_nat (l_nIterMag p)) 0 mag0;   (* 580-616 *)
    Ok (magEst, clockEst)))))).                                             (* 618 *)
