(** Model of coralign/pupil/pupilfit.py. The parsed YAML files and the FITS file are arguments, already of the types
    their checks ask for; images hold finite reals; debug plots are left out. *)
From Coq Require Import ZArith Bool List Reals String.
From Flocq Require Import Core.
From Verif.Base Require Import Py Arr Vec Sums.
From Verif.Model Require Import Math Noll Fits PadCrop PsfFit MaskGen PupilUtil FitShapes Unwrap.
Import ListNotations.
Open Scope Z_scope.

(** The next statement, when a loop of the previous one may still be running (None). *)
Definition obind {A B} (x : option (res A)) (f : A -> option (res B)) : option (res B) :=
  match x with None => None | Some (Err e) => Some (Err e) | Some (Ok a) => f a end.

(** ** fit_unmasked_pupil *)

(** Tuning parameters of lines 81-96 ([p_maskRef] is the content of fnMaskRefHighRes) and of the ellipse fit. *)
Record tuning := {
  p_nIterOffsets : Z; p_nPadFFT : Z; p_nFocusCrop : Z; p_nPhaseSteps : Z; p_dPixel : R; p_clockDegMax : R; p_nClock : Z;
  p_maskRef : arr R; p_diamHighRes : R; p_rotRef : R; p_flipxRef : bool; p_padFacRef : R; p_deltaAmpMax : R;
  p_percentile : R; p_zeroPadding : R; p_nIterDilateErode : Z; p_padFactor : R }.
(** pupilfit.py:98-115, the values. *)
Definition check_tuning (p : tuning) : res unit :=
  check 0 <? p_nIterOffsets p else TypeError;                               (* 98 *)
  check 0 <? p_nPadFFT p else TypeError;                                    (* 99 *)
  check 0 <? p_nFocusCrop p else TypeError;                                 (* 100 *)
  check 0 <? p_nPhaseSteps p else TypeError;                                (* 101 *)
  check Rltb 0 (p_dPixel p) else TypeError;                                 (* 102 *)
  check Rltb 0 (p_clockDegMax p) else TypeError;                            (* 103 *)
  check 0 <? p_nClock p else TypeError;                                     (* 104 *)
  check Rltb 0 (p_diamHighRes p) else TypeError;                            (* 107 *)
  check Rltb 0 (p_padFacRef p) else TypeError;                              (* 110 *)
  check Rleb 0 (p_deltaAmpMax p) else TypeError;                            (* 111 *)
  check Rltb 0 (p_percentile p) else TypeError;                             (* 112 *)
  check Rleb 0 (p_zeroPadding p) else TypeError;                            (* 114 *)
  Ok tt.
(** pupilfit.py:139-141, 269-272: the reference padded to an even square. *)
Definition padded_reference (maskRef : arr R) (zeroPadding : R) : res (arr R) :=
  let nPad := ceil_even (IZR (Z.max (nr maskRef) (nc maskRef)) + zeroPadding) in
  pad_crop maskRef [nPad; nPad] 0%R.
(** pupilfit.py:30-147, returning (xOffset, yOffset, clockEst, diamEst). [fuel] and [rnd] are those of
    compute_lateral_offsets, which does not use them without the coarse search. *)
Definition fit_unmasked_pupil (contours : contours_fun) (cv_ellipse : cv_ellipse_fun) (lstsq1 : lstsq1_fun) (lstsq : lstsq_fun)
    (rotate : rotate_fun) (spline : bispline_fun) (fuel : nat) (rnd : R -> R) (pupil : arr R) (p : tuning)
  : option (res (R * R * R * R)) :=
  obind (Some (do _ <- check_tuning p; ampthresh pupil 21)) (fun m =>       (* 119 *)
  let pupil := amap of_bool m in
  obind (Some (fit_ellipse contours cv_ellipse pupil (p_nIterDilateErode p) (p_padFactor p))) (fun e =>   (* 120-121 *)
  let '(diamEst, xOffsetCoarse, yOffsetCoarse) := e in
  obind (Some (do r <- rotate_shift_downsample rotate spline (p_maskRef p) (p_rotRef p) (diamEst / p_diamHighRes p) 0 0
                         (p_padFacRef p) (p_flipxRef p);                    (* 126-129 *)
               pad_crop r [p_nPadFFT p; p_nPadFFT p] 0%R)) (fun pupilRef =>   (* 130 *)
  obind (compute_lateral_offsets lstsq fuel rnd pupil pupilRef diamEst (p_nPhaseSteps p) (p_dPixel p) (p_nPadFFT p)
           (p_nFocusCrop p) (p_nIterOffsets p) false xOffsetCoarse yOffsetCoarse) (fun o =>   (* 133-136 *)
  let '(yOffset, xOffset) := o in
  Some (
    do maskPad <- padded_reference (p_maskRef p) (p_zeroPadding p);         (* 139-141 *)
    do clockEst <- compute_clocking lstsq1 rotate spline pupil diamEst maskPad (p_diamHighRes p) xOffset yOffset
                     (p_clockDegMax p) (p_nClock p) (p_percentile p) (p_deltaAmpMax p) false;   (* 143-145 *)
    Ok (xOffset, yOffset, clockEst, diamEst)))))).                          (* 147 *)

(** ** fit_unmasked_pupil_old *)

(** Tuning parameters of lines 181-195; only their types and the last three values are checked. *)
Record tuning_old := {
  q_nBeamNom : R; q_nBin : Z; q_nPadFFT : Z; q_nFocusCrop : Z; q_nPhaseSteps : Z; q_dPixel : R; q_clockDegMax : R; q_nClock : Z;
  q_maskNom : arr R; q_maskHigh : arr R; q_diamHighRes : R; q_deltaAmpMax : R; q_percentile : R; q_zeroPadding : R }.
(** pupilfit.py:241-250: the sum of the normalized amplitude over its own thresholded pixels. Simplified: dividing by a
    zero factor; the factor is positive, being a percentile of values above a positive threshold. The code thresholds the
    second map before it sums the first, which matters only if both fail. *)
Definition normalized_area (a : arr R) (q : R) : res R :=
  do m <- ampthresh a 21;
  do f <- compute_norm_factor a (amap of_bool m) q;                         (* 241-244 *)
  let n := amap (fun v => v / f)%R a in                                     (* 245-246 *)
  do m' <- ampthresh n 21;                                                  (* 249-250 *)
  Ok (sum_list (select m' n)).
(** pupilfit.py:150-277 for a real map; a complex map whose imaginary part is not identically zero is replaced by its
    modulus (ampthresh.py:32-34 and 238 here). *)
Definition fit_unmasked_pupil_old (lstsq1 : lstsq1_fun) (lstsq : lstsq_fun) (rotate : rotate_fun) (spline : bispline_fun)
    (fuel : nat) (rnd : R -> R) (pupilAmp : arr R) (p : tuning_old) : option (res (R * R * R * R)) :=
  obind (Some (
    check Rleb 0 (q_deltaAmpMax p) else TypeError;                          (* 219 *)
    check Rltb 0 (q_percentile p) else TypeError;                           (* 220 *)
    check Rleb 0 (q_zeroPadding p) else TypeError;                          (* 222 *)
    ampthresh pupilAmp (q_nBin p))) (fun ampBool =>                         (* 232 *)
  let amp := amap of_bool ampBool in                                        (* 233 *)
  let pupilMeas := amap Rabs pupilAmp in                                    (* 238 *)
  let pupilRef := amap Rabs (q_maskNom p) in                                (* 239 *)
  obind (Some (do sMeas <- normalized_area pupilMeas (q_percentile p);
               do sRef <- normalized_area pupilRef (q_percentile p);
               let diamEst0 := (q_nBeamNom p * sqrt (sMeas / sRef))%R in    (* 248-250 *)
               do r <- rotate_shift_downsample rotate spline (q_maskHigh p) 0 (diamEst0 / q_diamHighRes p) 0 0 (12 / 10) false;   (* 254-259 *)
               do ref <- pad_crop r [q_nPadFFT p; q_nPadFFT p] 0%R;         (* 260 *)
               Ok (diamEst0, ref))) (fun dr =>
  let '(diamEst0, ref) := dr in
  obind (compute_lateral_offsets lstsq fuel rnd amp ref diamEst0 (q_nPhaseSteps p) (q_dPixel p) (q_nPadFFT p)
           (q_nFocusCrop p) 1 true 0 0) (fun o =>                           (* 262-264 *)
  let '(yOffset1, xOffset1) := o in
  Some (
    do maskPad <- padded_reference (q_maskHigh p) (q_zeroPadding p);        (* 269-272 *)
    do clockEst1 <- compute_clocking lstsq1 rotate spline pupilMeas diamEst0 maskPad (q_diamHighRes p) xOffset1 yOffset1
                      (q_clockDegMax p) (q_nClock p) (q_percentile p) (q_deltaAmpMax p) false;   (* 273-275 *)
    Ok (xOffset1, yOffset1, clockEst1, diamEst0))))).                       (* 277 *)

(** ** fit_pupil_zernikes *)

(** numpy broadcasting of a binary operation on 2-D arrays. *)
Definition bc_size (n m : Z) : res Z :=
  if n =? m then Ok n else if n =? 1 then Ok m else if m =? 1 then Ok n else Err ValueError.
Definition broadcast (f : R -> R -> R) (a b : arr R) : res (arr R) :=
  do r <- bc_size (nr a) (nr b);
  do c <- bc_size (nc a) (nc b);
  Ok (Arr r c (fun i j => f (at2 a (bc_idx (nr a) i) (bc_idx (nc a) j)) (at2 b (bc_idx (nr b) i) (bc_idx (nc b) j)))).
(** pupilfit.py:23-27 *)
Definition pupil_selem : arr bool := of_rows false
  [[false; true; false];
   [true; true; true];
   [false; true; false]].
Record zernike_fit := {
  z_coefs : vec R; z_mask : arr R; z_res_ptt : arr R; z_res : arr R; z_diam : R; z_x : R; z_y : R }.
(** wfe - bMask*gen_zernikes(1..n, ...), lines 393-400. *)
Definition residual (wfe mask : arr R) (n : Z) (coefs : Z -> R) (x y diam : R) : res (arr R) :=
  do g <- gen_zernikes (map (fun k => k + 1) (zrange n)) (map coefs (zrange n)) x y diam (nr wfe);
  do t <- broadcast Rmult mask g;
  broadcast Rminus wfe t.
(** pupilfit.py:280-416. [fit amp] is fit_unmasked_pupil with the parameter files. mask_selem is given by which of its
    elements are non-zero. *)
Definition fit_pupil_zernikes (fit : arr R -> res (R * R * R * R)) (lstsq : lstsq_fun) (wfe amp : arr R) (bMask : option (arr R))
    (Z_noll_max : Z) (mask_selem : option (arr bool)) : res zernike_fit :=
  check match bMask with
        | Some b => forallb (fun v => if Req_EM_T v 0 then true else if Req_EM_T v 1 then true else false) (elements b)
        | None => true end else TypeError;                                  (* 360-364 *)
  check 0 <? Z_noll_max else TypeError;                                     (* 365 *)
  let Z_noll_max := if Z_noll_max <? 3 then 3 else Z_noll_max in            (* 366-368 *)
  do r <- fit amp;                                                          (* 377-379 *)
  let '(xOffset, yOffset, _, diamEst) := r in
  do m <- match bMask with
          | Some b => Ok b
          | None =>
              do t <- ampthresh amp 21;                                     (* 385 *)
              do e <- match mask_selem with Some s => binary_erosion t s | None => Ok t end;   (* 386-387 *)
              Ok (amap of_bool e)
          end;
  do Zvec <- fit_zernikes lstsq wfe m Z_noll_max diamEst xOffset yOffset;   (* 390 *)
  do ptt <- residual wfe m 3 Zvec xOffset yOffset diamEst;                  (* 393-396 *)
  do res <- residual wfe m Z_noll_max Zvec xOffset yOffset diamEst;         (* 397-400 *)
  Ok {| z_coefs := Vec Z_noll_max Zvec; z_mask := m; z_res_ptt := ptt; z_res := res; z_diam := diamEst; z_x := xOffset;
        z_y := yOffset |}.                                                  (* 403-416 *)
