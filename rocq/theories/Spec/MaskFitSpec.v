(** Specifications for the mask fits of coralign/pupil/maskfit.py. *)
From Coq Require Import ZArith Bool List Reals.
From Flocq Require Import Core.
From Verif.Base Require Import Py Arr Vec Sums.
From Verif.Model Require Import Fits MaskGen PupilUtil MaskFit.
From Verif.Spec Require Import FitsSpec PupilUtilSpec PupilFitSpec UnwrapSpec DmRegSpec.
Open Scope Z_scope.

(** [b] holds the image in units of [f], negative values replaced by zero. *)
Definition in_units (image : arr R) (f : R) (b : arr R) : Prop :=
  nr b = nr image /\ nc b = nc image /\ forall i j, in_arr b i j -> at2 b i j = Rmax 0 (at2 image i j / f).
(** [f] is the percentile q of the bright part of the image. *)
Definition bright_level (image : arr R) (q f : R) : Prop :=
  exists m, ampthresh image 21 = Ok m /\ is_percentile (values_where image (zero_one_of m)) q f.
(** [a] holds the square roots of [b]. *)
Definition roots (b a : arr R) : Prop :=
  nr a = nr b /\ nc a = nc b /\ forall i j, in_arr a i j -> at2 a i j = sqrt (at2 b i j).
(** Amplitude of an intensity image in units of its own bright level. *)
Definition amplitude_of (image : arr R) (q : R) (a : arr R) : Prop :=
  exists f b, bright_level image q f /\ f <> 0%R /\ in_units image f b /\ roots b a.
Definition product (a b : arr R) : arr R := Arr (nr a) (nc a) (fun i j => at2 a i j * at2 b i j)%R.

(** ** Offsets of a mask over a pupil *)

(** What is expected behind the mask: the unmasked amplitude [u] times the reference at (x, y) from the pupil at (xP, yP),
    seen through an N by N window about the rounded pupil position. *)
Definition simulated (rotate : arr R -> R -> arr R) (spline : vec R -> vec R -> arr R -> R -> R -> R) (u : arr R) (N : Z)
    (maskRef : arr R) (mag clock xP yP x y : R) (sim : Z -> Z -> R) : Prop :=
  exists ref r, rotate_shift_downsample rotate spline maskRef clock mag (x + xP) (y + yP) (12 / 10) false = Ok ref /\
    recentred ref (nr u) (nc u) r /\ sim = window (product u r) N (ZnearestE yP) (ZnearestE xP).
(** One pass: the estimate moves by [gain] times the shift that best maps the expectation onto the same window of the
    masked amplitude [m]. *)
Definition mask_pass (rotate : arr R -> R -> arr R) (spline : vec R -> vec R -> arr R -> R -> R -> R) (u m : arr R) (gain : R)
    (N nCrop nSteps nIter : Z) (dPixel : R) (maskRef : arr R) (mag clock xP yP : R) (x y x' y' : R) : Prop :=
  exists sim sx sy, simulated rotate spline u N maskRef mag clock xP yP x y sim /\
    lateral_search (misfit N nCrop (window m N (ZnearestE yP) (ZnearestE xP)) sim) nSteps nIter dPixel sx sy /\
    x' = (x + gain * sx)%R /\ y' = (y + gain * sy)%R.
Inductive repeated (step : R -> R -> R -> R -> Prop) : nat -> R -> R -> R -> R -> Prop :=
| repeated_done x y : repeated step 0 x y x y
| repeated_more n x y x1 y1 x' y' : step x y x1 y1 -> repeated step n x1 y1 x' y' -> repeated step (S n) x y x' y'.

(** ** Magnification *)

(** The i-th of n magnifications spread evenly over [c - w, c + w]. *)
Definition trial_mag (c w : R) (n i : Z) : R := if n =? 1 then (c - w)%R else (c - w + 2 * w * IZR i / (IZR n - 1))%R.
(** [r] is the reference turned, magnified and shifted, in an h by w frame. *)
Definition reference_view (rotate : arr R -> R -> arr R) (spline : vec R -> vec R -> arr R -> R -> R -> R) (maskRef : arr R)
    (clock mag x y : R) (h w : Z) (r : arr R) : Prop :=
  exists p, rotate_shift_downsample rotate spline maskRef clock mag x y (12 / 10) false = Ok p /\ recentred p h w r.
(** [c] pixels of the amplitude [a] differ by less than [delta] from the square of the reference at magnification [mag],
    in units of the bright level of that square. *)
Definition mag_agreement (rotate : arr R -> R -> arr R) (spline : vec R -> vec R -> arr R -> R -> R -> R) (a maskRef : arr R)
    (scale clock x y q delta mag c : R) : Prop :=
  exists r f, reference_view rotate spline maskRef clock (mag * scale) x y (nr a) (nc a) r /\ bright_level (product r r) q f /\
    counts (nr a) (nc a) (fun i j => f <> 0%R /\ (Rabs (at2 a i j - at2 r i j ^ 2 / f) < delta)%R) c.
(** [k] is the first index below n at which [f] is largest. *)
Definition first_largest (f : Z -> R) (n k : Z) : Prop :=
  0 <= k < n /\ (forall i, 0 <= i < n -> (f i <= f k)%R) /\ forall i, 0 <= i < k -> (f i < f k)%R.
(** The vertex of the parabola fitted to the squared deficits of the counts, 1 if it has no quadratic term. *)
Definition vertex_estimate (g : Z -> R) (n : Z) (count : Z -> R) (v : R) : Prop :=
  exists M p2 p1 p0, (exists i, 0 <= i < n /\ count i = M) /\ (forall i, 0 <= i < n -> (count i <= M)%R) /\
    best_parabola (Vec n g) (squared_deficit M n count) p2 p1 p0 /\
    (p2 = 0%R -> v = 1%R) /\ (p2 <> 0%R -> v = (- p1 / (2 * p2))%R).
(** Successive estimates from [c]: first the best trial (unless there is one pass only), then vertices, all with the
    same half-width w. *)
Definition mag_step (agree : R -> R -> Prop) (w : R) (n : Z) (best : bool) (c v : R) : Prop :=
  exists count, (forall i, 0 <= i < n -> agree (trial_mag c w n i) (count i)) /\
    if best then exists k, first_largest count n k /\ v = trial_mag c w n k else vertex_estimate (trial_mag c w n) n count v.
Inductive mag_search (agree : R -> R -> Prop) (w : R) (n : Z) : nat -> bool -> R -> R -> Prop :=
| mag_done b c : mag_search agree w n 0 b c c
| mag_more k b c c1 v : mag_step agree w n b c c1 -> mag_search agree w n k false c1 v -> mag_search agree w n (S k) b c v.

(** The first magnification: root of the ratio of the bright amplitude behind the mask to that expected from the
    unmasked amplitude [au] and the reference [r] at magnification one. *)
Definition starting_magnification (u m au am r : arr R) (mag : R) : Prop :=
  exists mu mm, ampthresh u 21 = Ok mu /\ ampthresh m 21 = Ok mm /\
    let expected := mask_total mu (product au r) in
    expected <> 0%R /\ (0 <= mask_total mm am / expected)%R /\ mag = sqrt (mask_total mm am / expected).
(** The N by N crop about the pixel offset by (yc, xc) from the centre. *)
Definition cropped (a : arr R) (N yc xc : Z) : arr R := Arr N N (window a N yc xc).
(** The whole fit. Both images are in units of the bright level of the unmasked one; scale is the ratio of the pupil
    diameters. *)
Definition lyot_fit (rotate : arr R -> R -> arr R) (spline : vec R -> vec R -> arr R -> R -> R -> R) (fuel : nat) (rnd : R -> R)
    (imageUnmasked imageMasked : arr R) (xPupil yPupil : R) (p : lyot_tuning) (mag clock : R) : Prop :=
  let scale := (l_diamPupil p / l_diamHighRes p)%R in
  let view := reference_view rotate spline (l_maskRef p) in
  exists f u m au am r0 mag0 r1 x1 y1 sx sy,
    bright_level imageUnmasked (l_percentile p) f /\ f <> 0%R /\ in_units imageUnmasked f u /\ in_units imageMasked f m /\
    roots u au /\ roots m am /\
    view 0%R scale xPupil yPupil (nr u) (nc u) r0 /\ starting_magnification u m au am r0 mag0 /\
    view 0%R (mag0 * scale)%R xPupil yPupil (nr u) (nc u) r1 /\
    coarsely_locate_pupil_offset fuel rnd am (mag0 * l_diamPupil p * l_OD p) 3 = Some (Ok (x1, y1)) /\
    (let n := Z.max (nr am) (nc am) in let N := l_nPadFFT p in
     lateral_search (misfit N (l_nFocusCrop p) (window (cropped am n y1 x1) N 0 0) (window (cropped (product r1 au) n y1 x1) N 0 0))
       (l_nPhaseSteps p) 2 (l_dPixel p) sx sy) /\
    (exists b count, ampthresh (amap (fun v => v ^ 2)%R am) 21 = Ok b /\
      (forall i, 0 <= i < l_nClock p -> overlap rotate spline am (mag0 * l_diamPupil p) (l_maskRef p) (l_diamHighRes p) (sx + xPupil) (sy + yPupil)
         (l_percentile p) (l_deltaAmpMax p) false b (clock_angle (l_clockMaxDeg p) (l_nClock p) i) (count i)) /\
      clock_estimate (l_clockMaxDeg p) (l_nClock p) count clock) /\
    mag_search (mag_agreement rotate spline am (l_maskRef p) scale clock (sx + xPupil) (sy + yPupil) (l_percentile p) (l_deltaAmpMax p))
      (l_magShrinkFac p * l_deltaMag p) (l_nMag p) (Z.to_nat (l_nIterMag p)) (1 <? l_nIterMag p) mag0 mag.

(** ** Shear *)

(** [s] is the phase added by a poke: over the large bright regions of the amplitude the difference of the phases up to
    whole turns, less its plane; zero elsewhere. *)
Definition poke_signature (amp unpoked poked s : arr R) : Prop :=
  exists m u, mask_used amp amp 21 64 true None m /\
    (forall i j, on m (i, j) -> congruent (at2 poked i j - at2 unpoked i j) (u i j)) /\ flattened m u s.
(** [m'] is [m] moved by dy rows and dx columns, all of it staying in the frame. *)
Definition moved_mask (m : arr bool) (dy dx : Z) (m' : arr bool) : Prop :=
  nr m' = nr m /\ nc m' = nc m /\ forall i j, on m' (i + dy, j + dx) <-> on m (i, j).
Definition one_piece (m : arr bool) : Prop := forall p q, on m p -> on m q -> joined m p q.
(** The measured difference of the phases is the field [psi], in one branch of the phase. *)
Definition shows (m : arr bool) (unpoked poked : arr R) (psi : Z -> Z -> R) : Prop :=
  forall i j, on m (i, j) -> congruent (psi i j) (at2 poked i j - at2 unpoked i j) /\ (Rabs (at2 poked i j - at2 unpoked i j) <= PI)%R.
(** The phase with a screen added. *)
Definition screen (c : Z -> Z -> R) (a : arr R) : arr R := Arr (nr a) (nc a) (fun i j => at2 a i j + c i j)%R.
