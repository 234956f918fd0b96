(** C53, C69: mask resampling and the HLC occulter. *)
From Coq Require Import ZArith Bool List String Reals Lra Lia.
From Coquelicot Require Import Complex.
From Verif.Base Require Import Py Arr Vec Sums CSum.
From Verif.Model Require Import Fits ThinFilm MaskGen.
From Verif.Spec Require Import MaskGenSpec HlcSpec.
From Verif.Proofs Require Import MaskGenP MaskGenQ MaskGenR MaskGenEx.
Import ListNotations.
Open Scope list_scope.
Open Scope Z_scope.

(** C53. Upsampling, a non-positive magnification and a padding factor below one are type errors. *)
Theorem C53_rejects rotate spline a rotDeg mag xo yo padFac flip : ~ (0 < mag <= 1)%R \/ (padFac < 1)%R ->
  rotate_shift_downsample rotate spline a rotDeg mag xo yo padFac flip = Err TypeError.
Proof. exact (down_rejects' rotate spline a rotDeg mag xo yo padFac flip). Qed.
Print Assumptions C53_rejects.

(** A padded mask narrower than four pixels makes the spline fit fail. *)
Theorem C53_small rotate spline a rotDeg mag xo yo padFac flip h : wf a -> (0 < mag <= 1)%R -> (1 <= padFac)%R ->
  least_odd_above (padFac * IZR (Z.max (nr a) (nc a))) (2 * h + 1) -> 2 * h + 1 < 4 ->
  rotate_shift_downsample rotate spline a rotDeg mag xo yo padFac flip = Err spline_error.
Proof. exact (fun W M P Hh => down_err rotate spline a rotDeg mag xo yo padFac flip W M P h Hh). Qed.
Print Assumptions C53_small.

(** Otherwise the output is square, even sized, with a blank first row and column, for every resampling spline. Around the centre
    it samples, at ((d - offset) / mag), the mask padded to the least odd side, flipped if asked, averaged over discs of the
    diameter of one output pixel and rotated unless the angle is zero; averaging keeps the total. *)
Theorem C53_value rotate spline (a : arr R) rotDeg mag xo yo padFac (flip : bool) h H : wf a -> (0 < mag <= 1)%R -> (1 <= padFac)%R ->
  least_odd_above (padFac * IZR (Z.max (nr a) (nc a))) (2 * h + 1) ->
  least_odd_above (IZR (2 * h + 1) * mag + 2 + 2 * Rmax (Rabs xo) (Rabs yo)) (2 * H + 1) -> 4 <= 2 * h + 1 ->
  exists out A g, rotate_shift_downsample rotate spline a rotDeg mag xo yo padFac flip = Ok out /\
  nr A = 2 * h + 1 /\ nc A = 2 * h + 1 /\
  (forall i j, in_arr A i j -> at2 A i j = smoothed h (/ (2 * mag)) (flipped a flip) (i - h) (j - h)) /\
  rsum2 (at2 A) (nr A) (nc A) = rsum2 (at2 a) (nr a) (nc a) /\ whole_grid h g /\
  nr out = 2 * (H + 1) /\ nc out = 2 * (H + 1) /\
  (forall i, 0 <= i < 2 * (H + 1) -> at2 out i 0 = 0%R /\ at2 out 0 i = 0%R) /\
  forall dy dx, - H <= dy <= H -> - H <= dx <= H ->
    at2 out (H + 1 + dy) (H + 1 + dx) =
    spline g g (if Req_EM_T rotDeg 0 then A else rotate A (- rotDeg)%R) ((IZR dy - yo) / mag)%R ((IZR dx - xo) / mag)%R.
Proof. exact (value_lem rotate spline a rotDeg mag xo yo padFac flip h H). Qed.
Print Assumptions C53_value.

(** Downsampling by a whole factor K with whole-pixel shifts: every output pixel is the mean of the mask over a disc of diameter K
    around the matching input pixel (the nearest edge pixel if that lies outside the padded array). *)
Theorem C53_whole rotate spline a padFac flip K X Y h H : wf a -> good_spline spline -> (1 <= padFac)%R -> 1 <= K ->
  least_odd_above (padFac * IZR (Z.max (nr a) (nc a))) (2 * h + 1) ->
  least_odd_above (IZR (2 * h + 1) * / IZR K + 2 + 2 * Rmax (Rabs (IZR X)) (Rabs (IZR Y))) (2 * H + 1) -> 4 <= 2 * h + 1 ->
  exists out, rotate_shift_downsample rotate spline a 0 (/ IZR K) (IZR X) (IZR Y) padFac flip = Ok out /\
  nr out = 2 * (H + 1) /\ nc out = 2 * (H + 1) /\
  forall dy dx, - H <= dy <= H -> - H <= dx <= H -> at2 out (H + 1 + dy) (H + 1 + dx) =
    smoothed h (IZR K / 2) (flipped a flip) (clampZ h ((dy - Y) * K)) (clampZ h ((dx - X) * K)).
Proof. exact (whole_ok rotate spline a padFac flip K X Y h H). Qed.
Print Assumptions C53_whole.

(** An average never leaves the range of the mask, and uses no wrapped-around pixel where the disc stays inside the array. *)
Theorem C53_average h r f lo hi d e : 0 <= h -> (0 <= r)%R ->
  (forall k l, - h <= k <= h -> - h <= l <= h -> (lo <= f k l <= hi)%R) -> (lo <= smoothed h r f d e <= hi)%R.
Proof. exact (smoothed_bounds h r f lo hi d e). Qed.
Print Assumptions C53_average.
Theorem C53_average_inside h r R0 f d e : 0 <= h -> (0 <= r <= IZR R0)%R -> - h <= d - R0 -> d + R0 <= h -> - h <= e - R0 -> e + R0 <= h ->
  smoothed h r f d e = disc_mean h r (fun k l => f (d - k) (e - l)).
Proof. exact (smoothed_inside h r R0 f d e). Qed.
Print Assumptions C53_average_inside.

(** At unit magnification without rotation the mask is reproduced, centred, flipped if asked and shifted, wherever the padded array
    reaches; everywhere if the border of the padded array is blank. *)
Theorem C53_unit rotate spline a padFac (flip : bool) X Y h H : wf a -> good_spline spline -> (1 <= padFac)%R ->
  least_odd_above (padFac * IZR (Z.max (nr a) (nc a))) (2 * h + 1) -> 4 <= 2 * h + 1 ->
  least_odd_above (IZR (2 * h + 1) + 2 + 2 * IZR (Z.max (Z.abs X) (Z.abs Y))) (2 * H + 1) ->
  exists out, rotate_shift_downsample rotate spline a 0 1 (IZR X) (IZR Y) padFac flip = Ok out /\
  nr out = 2 * (H + 1) /\ nc out = 2 * (H + 1) /\
  (forall i, 0 <= i < 2 * (H + 1) -> at2 out i 0 = 0%R /\ at2 out 0 i = 0%R) /\
  (forall dy dx, - H <= dy <= H -> - H <= dx <= H -> - h <= dy - Y <= h -> - h <= dx - X <= h ->
     at2 out (H + 1 + dy) (H + 1 + dx) = flipped a flip (dy - Y) (dx - X)) /\
  ((forall d, - h <= d <= h -> off_centre a d h = 0%R /\ off_centre a d (- h) = 0%R /\
                               off_centre a h d = 0%R /\ off_centre a (- h) d = 0%R) ->
   forall dy dx, - H <= dy <= H -> - H <= dx <= H ->
     at2 out (H + 1 + dy) (H + 1 + dx) = flipped a flip (dy - Y) (dx - X)).
Proof. exact (unit_ok rotate spline a padFac flip X Y h H). Qed.
Print Assumptions C53_unit.

(** Without the blank border it is not: a uniform 5 x 5 mask without padding leaks outside its own support. *)
Theorem C53_edge_refuted rotate spline : good_spline spline ->
  exists out, rotate_shift_downsample rotate spline ones5 0 1 0 0 1 false = Ok out /\ nr out = 8 /\ nc out = 8 /\
    off_centre ones5 3 0 = 0%R /\ off_centre out 3 0 = 1%R.
Proof. exact (edge_lem rotate spline). Qed.
Print Assumptions C53_edge_refuted.

(** C69. An output size that is not two positive numbers and parameters out of range are type errors. *)
Theorem C69_rejects rotate spline fd p lam scale shapeOut xo yo :
  ~ (exists ny nx, shapeOut = [ny; nx] /\ hlc_checks p lam ny nx) ->
  gen_hlc_occulter rotate spline fd p lam scale shapeOut xo yo = Err TypeError.
Proof. exact (hlc_rejects rotate spline fd p lam scale shapeOut xo yo). Qed.
Print Assumptions C69_rejects.
(** At file resolution every pixel is the thin-film transmission of its own coating, divided by that of the corner pixel. *)
Theorem C69_start fd p lam N s : wf (h_pmgi p) -> least_odd_above (IZR (Z.max (nr (h_pmgi p)) (nc (h_pmgi p)))) N -> 0 < N ->
  occ_start fd p lam = Ok (Some s) ->
  nr s = N /\ nc s = N /\ exists tc, tc <> RtoC 0 /\ pixel_coef fd p lam (off_centre (h_pmgi p) (- (N / 2)) (- (N / 2))) (Some tc) /\
  forall i j, 0 <= i < N -> 0 <= j < N -> exists t,
    pixel_coef fd p lam (off_centre (h_pmgi p) (i - N / 2) (j - N / 2)) (Some t) /\ at2 s i j = (t / tc)%C.
Proof. exact (start_ok fd p lam N s). Qed.
Print Assumptions C69_start.

(** It exists, with finite values, for the shipped material tables from 0.2 to 4 micrometres when the corner pixel is bare. *)
Theorem C69_start_exists p lam N ny nx : hlc_checks p lam ny nx -> wf (h_pmgi p) -> (2 / 10 <= lam * 1000000 <= 4)%R ->
  least_odd_above (IZR (Z.max (nr (h_pmgi p)) (nc (h_pmgi p)))) N ->
  (off_centre (h_pmgi p) (- (N / 2)) (- (N / 2)) <= 0)%R -> exists s, occ_start shipped p lam = Ok (Some s).
Proof. exact (start_exists p lam N ny nx). Qed.
Print Assumptions C69_start_exists.

(** The output has the requested shape. Outside a centred window of n_end pixels it is exactly one. Inside it is the band-limited
    resampling of the downsampled transmission (cropped or zero-padded spectrum), which has the same mean. *)
Theorem C69_value rotate spline fd p lam scale ny nx xo yo s N : hlc_checks p lam ny nx -> wf (h_pmgi p) ->
  least_odd_above (IZR (Z.max (nr (h_pmgi p)) (nc (h_pmgi p)))) N -> occ_start fd p lam = Ok (Some s) ->
  4 <= N -> 0 < n_end p lam scale -> 0 < n_mid p lam scale ->
  let ne := n_end p lam scale in let nm := n_mid p lam scale in
  let down a := rotate_shift_downsample rotate spline a (h_rotDeg p) (magn p lam scale) (xo * ratio p lam scale) (yo * ratio p lam scale)
                  (h_padFac p) false in
  exists re im mid core out, down (part_re s) = Ok re /\ down (part_im s) = Ok im /\
  nr mid = nm /\ nc mid = nm /\
  (forall i j, 0 <= i < nm -> 0 <= j < nm ->
     at2 mid i j = (1 + off_centre re (i - nm / 2) (j - nm / 2), off_centre im (i - nm / 2) (j - nm / 2))%R) /\
  nr core = ne /\ nc core = ne /\ cmean_of core = cmean_of mid /\
  ((forall i j, in_arr mid i j -> at2 mid i j = RtoC 1) -> forall i j, at2 core i j = RtoC 1) /\
  (forall p q, at2 core p q = cdft2 (-1) ne ne (fun i j =>
    if in_arrb mid (i - ne / 2 + nm / 2) (j - ne / 2 + nm / 2)
    then (cdft2 1 nm nm (at2 mid) (i - ne / 2 + nm / 2)%Z (j - ne / 2 + nm / 2)%Z / RtoC (IZR nm * IZR nm))%C
    else RtoC 0) p q) /\
  gen_hlc_occulter rotate spline fd p lam scale [ny; nx] xo yo = Ok (Some out) /\ nr out = ny /\ nc out = nx /\
  forall i j, 0 <= i < ny -> 0 <= j < nx ->
    at2 out i j = if in_arrb core (i - ny / 2 + ne / 2) (j - nx / 2 + ne / 2)
                  then at2 core (i - ny / 2 + ne / 2) (j - nx / 2 + ne / 2) else RtoC 1.
Proof. exact (fun HC W HN HS => hlc_ok rotate spline fd p lam scale ny nx xo yo HC W s N HN HS). Qed.
Print Assumptions C69_value.

(** The internal resampling never asks for upsampling. *)
Theorem C69_magnification p lam scale ny nx : hlc_checks p lam ny nx -> 0 < n_end p lam scale -> 0 < n_mid p lam scale ->
  (0 < magn p lam scale <= 1)%R.
Proof. exact (magn_ok p lam scale ny nx). Qed.
Print Assumptions C69_magnification.

(** A pattern without any PMGI transmits everything, everywhere, at any resolution, wavelength, shift and rotation. *)
Theorem C69_blank rotate spline fd p lam scale ny nx xo yo s N : hlc_checks p lam ny nx -> wf (h_pmgi p) ->
  least_odd_above (IZR (Z.max (nr (h_pmgi p)) (nc (h_pmgi p)))) N -> occ_start fd p lam = Ok (Some s) ->
  4 <= N -> 0 < n_end p lam scale -> 0 < n_mid p lam scale -> keeps_zero_spline spline -> keeps_zero_rotate rotate ->
  (forall dy dx, off_centre (h_pmgi p) dy dx <= 0)%R ->
  exists out, gen_hlc_occulter rotate spline fd p lam scale [ny; nx] xo yo = Ok (Some out) /\ nr out = ny /\ nc out = nx /\
  forall i j, 0 <= i < ny -> 0 <= j < nx -> at2 out i j = RtoC 1.
Proof. exact (fun HC W HN HS => blank_ok rotate spline fd p lam scale ny nx xo yo HC W s N HN HS). Qed.
Print Assumptions C69_blank.

(** The occulter radius is not validated: zero size divides by zero, negative is a type error from deeper down, and so is a window
    that covers less than one pixel of the pattern file. *)
Theorem C69_radius rotate spline fd p lam scale ny nx xo yo s N : hlc_checks p lam ny nx -> wf (h_pmgi p) ->
  least_odd_above (IZR (Z.max (nr (h_pmgi p)) (nc (h_pmgi p)))) N -> occ_start fd p lam = Ok (Some s) ->
  (n_end p lam scale = 0 -> gen_hlc_occulter rotate spline fd p lam scale [ny; nx] xo yo = Err ZeroDivisionError) /\
  (4 <= N -> n_end p lam scale < 0 -> gen_hlc_occulter rotate spline fd p lam scale [ny; nx] xo yo = Err TypeError) /\
  (0 < n_end p lam scale -> n_mid p lam scale <= 0 -> gen_hlc_occulter rotate spline fd p lam scale [ny; nx] xo yo = Err TypeError).
Proof.
  exact (fun HC W HN HS => conj (zero_end rotate spline fd p lam scale ny nx xo yo HC W s N HN HS)
    (conj (neg_end rotate spline fd p lam scale ny nx xo yo HC W s N HN HS) (small_mid rotate spline fd p lam scale ny nx xo yo HC W s N HN HS))).
Qed.
Print Assumptions C69_radius.

(** Concrete cases: a spline and a rotation as assumed; sizes; an occulter with one coated pixel; a bare one. *)
Example C53_case_spline : good_spline spline_ref.
Proof. exact spline_ref_good. Qed.
Example C53_case_sizes : wf ones5 /\ least_odd_above (1 * IZR (Z.max (nr ones5) (nc ones5))) (2 * 2 + 1) /\
  least_odd_above (IZR (2 * 2 + 1) + 2 + 2 * IZR (Z.max (Z.abs 0) (Z.abs 0))) (2 * 3 + 1).
Proof. split; [split; cbn; lia|]. split; [exact ones5_odd|exact ones5_out]. Qed.
Example C69_case h : hlc_checks (bare5 h) (1 / 2000000) 8 7 /\
  least_odd_above (IZR (Z.max (nr (h_pmgi (bare5 h))) (nc (h_pmgi (bare5 h))))) 5 /\
  (n_end (bare5 h) (1 / 2000000) false = 4 /\ n_mid (bare5 h) (1 / 2000000) false = 40) /\
  (exists s, occ_start shipped (bare5 h) (1 / 2000000) = Ok (Some s)) /\ keeps_zero_spline spline_ref /\ keeps_zero_rotate rotate_ref.
Proof.
  split; [exact (bare5_ok h)|]. split; [exact (bare5_odd h)|]. split; [exact (bare5_sizes h)|].
  split; [exact (bare5_start h)|]. split; [exact spline_ref_zero|exact rotate_ref_zero].
Qed.
