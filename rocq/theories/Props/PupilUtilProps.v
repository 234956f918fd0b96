(** C49, C50, C58: coarse pupil location, normalization factor, clocking and lateral offsets. *)
From Coq Require Import ZArith Bool List String Reals Lra Lia Sorted Permutation.
From Flocq Require Import Core.
From Coquelicot Require Import Complex.
From Verif.Base Require Import Py Arr Vec Sums CSum Lstsq.
From Verif.Model Require Import Fits PsfFit MaskGen PupilUtil.
From Verif.Spec Require Import PsfFitSpec FitsSpec MaskGenSpec PupilUtilSpec.
From Verif.Proofs Require Import MaskGenEx PupilUtilP PupilUtilN PupilUtilL PupilUtilC PupilUtilEx.
Import ListNotations.
Open Scope Z_scope.

(** C49. For every shrink factor above 1, in exact or binary64 arithmetic, the search ends (within as many passes
    as the first step size) and its result comes from passes of strictly decreasing steps, each taking the first
    offset of largest flux on its grid. *)
Theorem C49_terminates : forall rnd beam shrink, exact_or_binary64 rnd beam shrink -> (0 < beam)%R -> (1 < shrink)%R ->
  forall image, wf image -> forall fuel, 2 <= nr image \/ 2 <= nc image ->
  (Z.to_nat (Z.max 1 (Zfloor (rnd (beam / shrink)%R))) <= fuel)%nat ->
  exists x y, coarsely_locate_pupil_offset fuel rnd image beam shrink = Some (Ok (x, y)) /\
    coarse_search image beam (shrunk_step rnd shrink) 0 0 (Z.max (nc image / 2) (nr image / 2))
      (Z.max 1 (Zfloor (rnd (beam / shrink)%R))) x y.
Proof. exact locate_ok. Qed.
Print Assumptions C49_terminates.
(** The search result is thereby determined. *)
Theorem C49_unique : forall beam image next x0 y0 r s x y, coarse_search image beam next x0 y0 r s x y ->
  forall x' y', coarse_search image beam next x0 y0 r s x' y' -> x = x' /\ y = y'.
Proof. exact search_unique. Qed.
Print Assumptions C49_unique.
(** C49. One pass returns the first grid offset of largest flux, and the flux at every grid offset. *)
Theorem C49_pass : forall image beam x0 y0 r s, wf image -> (0 < beam)%R -> 0 < r -> 0 < s ->
  exists x y m, coarsely_locate_pupil_offset_once image beam x0 y0 r s = Ok (x, y, m) /\
    best_on_grid image beam x0 y0 r s x y /\
    nr m = 2 * r / s + 1 /\ nc m = 2 * r / s + 1 /\
    forall iy ix, in_arr m iy ix -> at2 m iy ix = disc_flux image beam (x0 - r + s * ix) (y0 - r + s * iy).
Proof. exact once_ok. Qed.
Print Assumptions C49_pass.
(** A uniform disc in the frame is found where it is when the first step is already a pixel. *)
Theorem C49_disc : forall fuel rnd image beam shrink cx cy, exact_or_binary64 rnd beam shrink -> wf image -> (0 < beam)%R ->
  (1 < shrink)%R -> (2 <= nr image \/ 2 <= nc image) -> (rnd (beam / shrink) < 2)%R -> (0 < fuel)%nat ->
  disc_image image beam cx cy -> coarsely_locate_pupil_offset fuel rnd image beam shrink = Some (Ok (cx, cy)).
Proof. exact locate_disc. Qed.
Print Assumptions C49_disc.
(** ... and in general, by any pass whose grid contains its offset. *)
Theorem C49_disc_pass : forall image beam cx cy x0 y0 r s x y, wf image -> (0 < beam)%R -> disc_image image beam cx cy ->
  on_grid x0 r s cx -> on_grid y0 r s cy -> best_on_grid image beam x0 y0 r s x y -> x = cx /\ y = cy.
Proof. exact best_disc. Qed.
Print Assumptions C49_disc_pass.
Theorem C49_pass_rejects : forall image beam x0 y0 r s, (beam <= 0)%R \/ r <= 0 \/ s <= 0 ->
  coarsely_locate_pupil_offset_once image beam x0 y0 r s = Err TypeError.
Proof. exact once_rejects. Qed.
Print Assumptions C49_pass_rejects.
Theorem C49_rejects : forall fuel rnd image beam shrink, (beam <= 0 \/ shrink <= 1)%R ->
  coarsely_locate_pupil_offset fuel rnd image beam shrink = Some (Err TypeError).
Proof. exact locate_rejects. Qed.
Print Assumptions C49_rejects.
(** A one-pixel image has search radius 0, which the first pass refuses. *)
Theorem C49_one_pixel : forall fuel rnd image beam shrink, nr image <= 1 -> nc image <= 1 -> (0 < fuel)%nat ->
  coarsely_locate_pupil_offset fuel rnd image beam shrink = Some (Err TypeError).
Proof. exact locate_one_pixel. Qed.
Print Assumptions C49_one_pixel.
(** The offset found need not be a pixel of the image, although candidates off the image are meant to be skipped:
    the bounds tests are joined by [or] and always succeed. *)
Theorem C49_on_image_refuted : exists image x y, wf image /\
  coarsely_locate_pupil_offset 1 (fun v => v) image 2 3 = Some (Ok (x, y)) /\ ~ in_arr image (nr image / 2 + y) (nc image / 2 + x).
Proof. exact off_image. Qed.
Print Assumptions C49_on_image_refuted.
(** A disc of diameter 3 at offset (1, -2) of a 9 by 9 image, in binary64. *)
Example C49_example : coarsely_locate_pupil_offset 1 round64 disc99 3 2 = Some (Ok (1, -2)).
Proof.
  apply C49_disc; try lra; try (cbn; lia); [|split; cbn; lia|exact disc99_step|exact disc99_ok].
  right. split; [reflexivity|]. split; apply three_64 || (apply generic_format_FLT; exists (Float radix2 2 0); cbn; [unfold F2R; cbn; lra|lia|lia]).
Qed.

(** C50. Accepted inputs and the value: the linearly interpolated percentile of the image values in the mask. *)
Theorem C50_value : forall image mask q v, compute_norm_factor image mask q = Ok v <->
  same_shape image mask = true /\ zero_one mask /\ (0 <= q <= 100)%R /\ values_where image mask <> [] /\
  is_percentile (values_where image mask) q v.
Proof. exact norm_ok. Qed.
Print Assumptions C50_value.
Theorem C50_rejects : forall image mask q e, compute_norm_factor image mask q = Err e <->
  e = TypeError /\ (same_shape image mask = false \/ ~ zero_one mask \/ (q < 0 \/ 100 < q)%R \/
    forall i j, in_arr mask i j -> at2 mask i j = 0%R).
Proof. exact norm_err. Qed.
Print Assumptions C50_rejects.
Theorem C50_bounds : forall image mask q v, compute_norm_factor image mask q = Ok v ->
  (exists i j, in_arr image i j /\ at2 mask i j = 1%R /\ (at2 image i j <= v)%R) /\
  (exists i j, in_arr image i j /\ at2 mask i j = 1%R /\ (v <= at2 image i j)%R) /\
  forall lo hi, (forall i j, in_arr image i j -> at2 mask i j = 1%R -> (lo <= at2 image i j <= hi)%R) -> (lo <= v <= hi)%R.
Proof. exact norm_bounds. Qed.
Print Assumptions C50_bounds.
(** The ends of the scale are the smallest and largest values in the mask. *)
Theorem C50_ends : forall image mask v q, compute_norm_factor image mask q = Ok v -> q = 0%R \/ q = 100%R ->
  (exists i j, in_arr image i j /\ at2 mask i j = 1%R /\ at2 image i j = v) /\
  forall i j, in_arr image i j -> at2 mask i j = 1%R -> (q = 0 -> v <= at2 image i j)%R /\ (q = 100 -> at2 image i j <= v)%R.
Proof. exact norm_ends. Qed.
Print Assumptions C50_ends.
Theorem C50_monotone : forall image mask q q' v v', compute_norm_factor image mask q = Ok v ->
  compute_norm_factor image mask q' = Ok v' -> (q <= q')%R -> (v <= v')%R.
Proof. exact norm_mono. Qed.
Print Assumptions C50_monotone.
Theorem C50_scales : forall image mask q v a b, (0 <= a)%R -> compute_norm_factor image mask q = Ok v ->
  compute_norm_factor (amap (fun x => a * x + b)%R image) mask q = Ok (a * v + b)%R.
Proof. exact norm_affine. Qed.
Print Assumptions C50_scales.
(** 1, 5 and 3 in the mask, the 25th percentile. *)
Example C50_example : compute_norm_factor im22 mk22 25 = Ok 2%R.
Proof. exact norm_ex. Qed.

(** C58. Clocking, for any reference mask: the counts of pixels on which the measured pupil and the reference
    rotated by each trial angle agree, and the vertex of the parabola through the squared deficits. *)
Theorem C58_clocking : forall lstsq, is_lstsq_oracle lstsq -> forall rotate spline amp diamBeam maskRef diamHigh x y max n q delta useAmpthresh v,
  wf maskRef -> compute_clocking lstsq rotate spline amp diamBeam maskRef diamHigh x y max n q delta useAmpthresh = Ok v ->
  exists m count, ampthresh (amap (fun u => u ^ 2)%R amp) 21 = Ok m /\
    (forall i, 0 <= i < n -> overlap rotate spline amp diamBeam maskRef diamHigh x y q delta useAmpthresh m (clock_angle max n i) (count i)) /\
    clock_estimate max n count v.
Proof. exact clocking_ok. Qed.
Print Assumptions C58_clocking.
(** The trial angles are symmetric about zero. *)
Theorem C58_angles : forall max n i, 2 <= n -> clock_angle max n (n - 1 - i) = (- clock_angle max n i)%R.
Proof. exact clock_symmetric. Qed.
Print Assumptions C58_angles.
(** The estimate depends on the counts alone; counts symmetric in the angle give zero, and counts that fall off
    linearly from a trial angle give that angle. *)
Theorem C58_estimate_unique : forall max n count v v', 3 <= n -> max <> 0%R ->
  clock_estimate max n count v -> clock_estimate max n count v' -> v = v'.
Proof. exact estimate_unique. Qed.
Print Assumptions C58_estimate_unique.
Theorem C58_symmetric : forall max n count v, 3 <= n -> max <> 0%R ->
  (forall i, 0 <= i < n -> count (n - 1 - i) = count i) -> clock_estimate max n count v -> v = 0%R.
Proof. exact estimate_symmetric. Qed.
Print Assumptions C58_symmetric.
Theorem C58_cone : forall max n count v k K, 3 <= n -> max <> 0%R -> 0 <= k < n -> (0 < K)%R ->
  (forall i, 0 <= i < n -> count i = (count k - K * Rabs (clock_angle max n i - clock_angle max n k))%R) ->
  clock_estimate max n count v -> v = clock_angle max n k.
Proof. exact estimate_cone. Qed.
Print Assumptions C58_cone.
Theorem C58_clocking_rejects : forall lstsq rotate spline amp diamBeam maskRef diamHigh x y max n q delta useAmpthresh,
  (diamBeam <= 0)%R \/ (diamHigh <= 0)%R \/ n <= 0 \/ (q < 0)%R \/ (delta < 0)%R ->
  compute_clocking lstsq rotate spline amp diamBeam maskRef diamHigh x y max n q delta useAmpthresh = Err TypeError.
Proof. exact clocking_rejects. Qed.
Print Assumptions C58_clocking_rejects.
(** Five by five images; the "rotation" slides the two bright pixels of the reference by whole columns. *)
Example C58_clocking_example : forall lstsq, is_lstsq_oracle lstsq ->
  compute_clocking lstsq slide spline_ref (pair5 1) 1 (pair5 2) 1 0 0 1 3 50 (1 / 10) true = Ok 1%R.
Proof. exact clock_ex. Qed.

(** C58. Lateral offsets, for any images: the whole-pixel start plus the result of the search (the best trial
    pair, then fits of quadratic surfaces with halved spacings) on the misfit of the two windows' spectra. *)
Theorem C58_lateral : forall lstsq, is_lstsq_oracle lstsq ->
  forall fuel rnd meas ref diamEst n d N nCrop nIter useCoarse xCoarse yCoarse xc yc y x,
  wf ref -> 0 < nr meas -> 0 < nc meas -> starts fuel rnd meas diamEst useCoarse xCoarse yCoarse xc yc ->
  compute_lateral_offsets lstsq fuel rnd meas ref diamEst n d N nCrop nIter useCoarse xCoarse yCoarse = Some (Ok (y, x)) ->
  exists sx sy, lateral_search (misfit N nCrop (window meas N yc xc) (window ref N 0 0)) n nIter d sx sy /\
    y = (IZR yc + sy)%R /\ x = (IZR xc + sx)%R.
Proof. exact lateral_ok. Qed.
Print Assumptions C58_lateral.
(** The trial shifts of a pass are symmetric about its centre, and its best trial stays inside its window. *)
Theorem C58_trials : forall n d c i, trial n d c (n - 1 - i) = (2 * c - trial n d c i)%R.
Proof. exact trial_symmetric. Qed.
Print Assumptions C58_trials.
Theorem C58_window_partial : forall m n d x0 y0 x y, (0 < d)%R -> best_trial m n d x0 y0 x y ->
  (Rabs (x - x0) <= (IZR n - 1) / 2 * d)%R /\ (Rabs (y - y0) <= (IZR n - 1) / 2 * d)%R.
Proof. exact best_trial_inside. Qed.
Print Assumptions C58_window_partial.
(** The fitted offsets may leave both the first window and that of the fit. *)
Theorem C58_window_refuted : exists meas ref d y x, (0 < d)%R /\ forall lstsq, is_lstsq_oracle lstsq -> forall fuel rnd,
  compute_lateral_offsets lstsq fuel rnd meas ref 1 3 d 2 2 2 false 0 0 = Some (Ok (y, x)) /\ (d < x)%R.
Proof. exact leaves_window. Qed.
Print Assumptions C58_window_refuted.
(** C58. A measured window that is the reference window shifted by a pair of whole-pixel trial shifts: the shift is
    found, unless a fit raises the degenerate-quadratic exception. *)
Theorem C58_recovers : forall lstsq, is_lstsq_oracle lstsq ->
  forall fuel rnd meas ref diamEst n d N nCrop nIter useCoarse xCoarse yCoarse xc yc dy dx,
  (0 < diamEst)%R -> 2 <= n -> (0 < d)%R -> 2 <= N -> N mod 2 = 0 -> 2 <= nCrop -> 2 <= nIter ->
  wf ref -> 0 < nr meas -> 0 < nc meas -> starts fuel rnd meas diamEst useCoarse xCoarse yCoarse xc yc ->
  window_shift N (window ref N 0 0) dy dx (window meas N yc xc) ->
  spectrum N (window ref N 0 0) 0 (-1) <> RtoC 0 -> spectrum N (window ref N 0 0) (-1) 0 <> RtoC 0 ->
  (exists i j, 0 <= i < n /\ 0 <= j < n /\ trial n d 0 j = IZR dx /\ trial n d 0 i = IZR dy) ->
  (IZR (n - 1) * d < IZR N)%R ->
  let r := compute_lateral_offsets lstsq fuel rnd meas ref diamEst n d N nCrop nIter useCoarse xCoarse yCoarse in
  r = Some (Err (Custom "QuadraticException")) \/ r = Some (Ok (IZR (yc + dy), IZR (xc + dx))).
Proof. exact lateral_recovers. Qed.
Print Assumptions C58_recovers.
Theorem C58_lateral_rejects : forall lstsq fuel rnd meas ref diamEst n d N nCrop nIter useCoarse xCoarse yCoarse,
  (diamEst <= 0)%R \/ n <= 0 \/ (d <= 0)%R \/ N <= 0 \/ nCrop <= 0 \/ nIter <= 0 ->
  compute_lateral_offsets lstsq fuel rnd meas ref diamEst n d N nCrop nIter useCoarse xCoarse yCoarse = Some (Err TypeError).
Proof. exact lateral_rejects. Qed.
Print Assumptions C58_lateral_rejects.
(** A 4 by 4 cross and its copy one column to the right. *)
Example C58_lateral_example : forall lstsq fuel rnd, is_lstsq_oracle lstsq ->
  compute_lateral_offsets lstsq fuel rnd (cross 3) (cross 2) 1 3 1 4 2 2 false 0 0 = Some (Ok (0, 1)%R).
Proof. exact recovered. Qed.
