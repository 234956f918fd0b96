(** Specifications for coarse pupil location, percentile normalization, clocking and lateral offsets. *)
From Coq Require Import ZArith Bool List Reals Sorted Permutation.
From Flocq Require Import Core.
From Coquelicot Require Import Complex.
From Verif.Base Require Import Py Arr Vec Sums CSum.
From Verif.Model Require Import Fits MaskGen PupilUtil.
From Verif.Spec Require Import PsfFitSpec FitsSpec.
Import ListNotations.
Open Scope Z_scope.

(** ** Coarse location. The centre pixel of an n-pixel axis has index n // 2. *)

(** Pixel (i, j) lies within [beam]/2 of the pixel offset by x columns and y rows from the centre pixel. *)
Definition in_beam (image : arr R) (beam : R) (x y i j : Z) : Prop :=
  (IZR (j - nc image / 2 - x) ^ 2 + IZR (i - nr image / 2 - y) ^ 2 <= (beam / 2) ^ 2)%R.
(** Flux within the beam-sized disc at offset (x, y). *)
Definition disc_flux (image : arr R) (beam : R) (x y : Z) : R :=
  rsum2 (fun i j => if Rle_dec (IZR (j - nc image / 2 - x) ^ 2 + IZR (i - nr image / 2 - y) ^ 2)%R ((beam / 2) ^ 2)%R
                    then at2 image i j else 0%R) (nr image) (nc image).
(** [v] is one of c - r, c - r + s, c - r + 2 s, ... up to c + r. *)
Definition on_grid (c r s v : Z) : Prop := exists k, 0 <= k /\ v = c - r + s * k /\ v <= c + r.
(** (x, y) is the first point of largest flux, rows (y) first, on the square grid about (x0, y0). *)
Definition best_on_grid (image : arr R) (beam : R) (x0 y0 r s x y : Z) : Prop :=
  on_grid x0 r s x /\ on_grid y0 r s y /\
  forall x' y', on_grid x0 r s x' -> on_grid y0 r s y' ->
    (disc_flux image beam x' y' <= disc_flux image beam x y)%R /\
    (y' < y \/ (y' = y /\ x' < x) -> (disc_flux image beam x' y' < disc_flux image beam x y)%R).
(** A search: passes with decreasing steps, each about the result of the one before with twice its step as
    radius, ending with a pass of step 1. *)
Inductive coarse_search (image : arr R) (beam : R) (next : Z -> Z) : Z -> Z -> Z -> Z -> Z -> Z -> Prop :=
| search_last x0 y0 r x y : best_on_grid image beam x0 y0 r 1 x y -> coarse_search image beam next x0 y0 r 1 x y
| search_more x0 y0 r s x1 y1 x y : 1 < s -> 1 <= next s < s -> best_on_grid image beam x0 y0 r s x1 y1 ->
    coarse_search image beam next x1 y1 (2 * s) (next s) x y -> coarse_search image beam next x0 y0 r s x y.
(** Step sizes: divide by the shrink factor with rounding [rnd], truncate, but not below 1. *)
Definition shrunk_step (rnd : R -> R) (shrink : R) (s : Z) : Z := Z.max 1 (Zfloor (rnd (IZR s / shrink)%R)).
(** Exact arithmetic, or IEEE binary64 arithmetic on binary64 arguments. *)
Notation binary64 := (generic_format radix2 (FLT_exp (-1074) 53)).
Notation round64 := (round radix2 (FLT_exp (-1074) 53) ZnearestE).
Definition exact_or_binary64 (rnd : R -> R) (beam shrink : R) : Prop :=
  (forall x, rnd x = x) \/ ((forall x, rnd x = round64 x) /\ binary64 beam /\ binary64 shrink).
(** The image is a uniform disc of diameter [beam] at offset (x, y), entirely in the frame. *)
Definition disc_image (image : arr R) (beam : R) (x y : Z) : Prop :=
  (exists v, (0 < v)%R /\ forall i j, in_arr image i j ->
     (in_beam image beam x y i j -> at2 image i j = v) /\ (~ in_beam image beam x y i j -> at2 image i j = 0%R)) /\
  forall i j, in_beam image beam x y i j -> in_arr image i j.

(** ** Percentiles *)

(** The image values where the mask is 1. *)
Definition values_where (image mask : arr R) : list R :=
  map (fun p => at2 image (fst p) (snd p))
    (filter (fun p => if Req_EM_T (at2 mask (fst p) (snd p)) 1 then true else false) (indices (nr image) (nc image))).
Definition zero_one (mask : arr R) : Prop := forall i j, in_arr mask i j -> at2 mask i j = 0%R \/ at2 mask i j = 1%R.
(** [v] is the linearly interpolated q-th percentile of [l]: with its values in increasing order, the one at the
    (possibly fractional) rank q/100 (n - 1). *)
Definition is_percentile (l : list R) (q v : R) : Prop :=
  forall s, Permutation s l -> Sorted Rle s ->
  exists (k : nat) (t : R), (0 <= t < 1)%R /\ (q / 100 * (INR (length l) - 1) = INR k + t)%R /\
    (k < length l)%nat /\ (t <> 0%R -> (S k < length l)%nat) /\
    v = ((1 - t) * nth k s 0 + t * nth (S k) s 0)%R.

(** ** Clocking *)

(** The i-th of n angles spread evenly over [-max, max]. *)
Definition clock_angle (max : R) (n i : Z) : R :=
  if n =? 1 then (- max)%R else (- max + 2 * max * IZR i / (IZR n - 1))%R.
(** [c] is the number of positions of an n by m array where P holds. *)
Definition counts (n m : Z) (P : Z -> Z -> Prop) (c : R) : Prop :=
  exists f : Z -> Z -> R, (forall i j, 0 <= i < n -> 0 <= j < m -> (P i j -> f i j = 1%R) /\ (~ P i j -> f i j = 0%R)) /\
    c = rsum2 f n m.
(** [b] is [a] padded with zeros, or cropped, about the centre pixel to r by c. *)
Definition recentred (a : arr R) (r c : Z) (b : arr R) : Prop :=
  nr b = r /\ nc b = c /\ forall i j, in_arr b i j ->
    at2 b i j = if in_arrb a (i - r / 2 + nr a / 2) (j - c / 2 + nc a / 2)
                then at2 a (i - r / 2 + nr a / 2) (j - c / 2 + nc a / 2) else 0%R.
(** Subtract the peak, square, fit a parabola, take its vertex (0 if it has no quadratic term). *)
Definition squared_deficit (M : R) (n : Z) (count : Z -> R) : vec R := Vec n (fun i => (count i - M) ^ 2)%R.
Definition clock_estimate (max : R) (n : Z) (count : Z -> R) (v : R) : Prop :=
  exists M p2 p1 p0, (exists i, 0 <= i < n /\ count i = M) /\ (forall i, 0 <= i < n -> (count i <= M)%R) /\
    best_parabola (Vec n (clock_angle max n)) (squared_deficit M n count) p2 p1 p0 /\
    (p2 = 0%R -> v = 0%R) /\ (p2 <> 0%R -> v = (- p1 / (2 * p2))%R).

Definition zero_one_of (m : arr bool) : arr R := amap (fun b : bool => if b then 1%R else 0%R) m.
(** How the i-th count comes about, [m] being the thresholded measured intensity. *)
Definition overlap (rotate : arr R -> R -> arr R) (spline : vec R -> vec R -> arr R -> R -> R -> R) (amp : arr R) (diamBeam : R) (maskRef : arr R)
    (diamHigh x y q delta : R) (useAmpthresh : bool) (m : arr bool) (angle c : R) : Prop :=
  exists p r b, rotate_shift_downsample rotate spline maskRef angle (diamBeam / diamHigh) x y 1 false = Ok p /\
    recentred p (nr amp) (nc amp) r /\ ampthresh r 21 = Ok b /\
    if (useAmpthresh : bool) then counts (nr amp) (nc amp) (fun i j => at2 m i j = at2 b i j) c
    else exists fM fR, is_percentile (values_where amp (zero_one_of m)) q fM /\
      is_percentile (values_where r (zero_one_of b)) q fR /\
      counts (nr amp) (nc amp) (fun i j => fM <> 0%R /\ fR <> 0%R /\ (Rabs (at2 amp i j / fM - at2 r i j / fR) < delta)%R) c.

(** ** Lateral offsets *)

(** The N by N window of [a] about the pixel offset by (yc, xc) from the centre pixel, zero outside [a]. *)
Definition window (a : arr R) (N yc xc p q : Z) : R :=
  let i := nr a / 2 + yc + (p - N / 2) in
  let j := nc a / 2 + xc + (q - N / 2) in
  if in_arrb a i j then at2 a i j else 0%R.
(** Centred discrete Fourier coefficient of an N by N image at frequency (k, l). *)
Definition spectrum (N : Z) (f : Z -> Z -> R) (k l : Z) : C :=
  (csum2 (fun p q => RtoC (f p q) * cis (- (2 * PI * ((IZR (p - N / 2) * IZR k + IZR (q - N / 2) * IZR l) / IZR N))))
    N N / RtoC (IZR N))%C.
Definition in_band (N k : Z) : bool := (- (N / 2) <=? k) && (k <? N - N / 2).
(** Misfit of the two spectra over the nCrop by nCrop lowest frequencies after undoing a shift of the first by
    (dx, dy). For odd N the code's frequencies are half a sample low. *)
Definition misfit (N nCrop : Z) (fm fr : Z -> Z -> R) (dx dy : R) : R :=
  let h := (IZR (N mod 2) / 2)%R in
  rsum2 (fun a b =>
    let k := a - nCrop / 2 in let l := b - nCrop / 2 in
    if in_band N k && in_band N l then
      Cmod2 (spectrum N fm k l * cis (2 * PI * ((dx * (IZR l - h) + dy * (IZR k - h)) / IZR N))%R - spectrum N fr k l)%C
    else 0%R) nCrop nCrop.
(** The i-th of n trial shifts spaced by d about c. *)
Definition trial (n : Z) (d c : R) (i : Z) : R := (c + (IZR i - (IZR n - 1) / 2) * d)%R.
(** One pass that takes the best trial pair about (x0, y0). *)
Definition best_trial (m : R -> R -> R) (n : Z) (d x0 y0 x y : R) : Prop :=
  exists i j, first_max (fun i j => - m (trial n d x0 j) (trial n d y0 i))%R n n i j /\
    x = trial n d x0 j /\ y = trial n d y0 i.
(** One pass that takes the stationary point of a least-squares quadratic surface through the trial pairs. *)
Definition surface_err (m : R -> R -> R) (n : Z) (d x0 y0 a b c p q r : R) : R :=
  rsum2 (fun i j => (quad2 a b c p q r (trial n d x0 j) (trial n d y0 i) - m (trial n d x0 j) (trial n d y0 i)) ^ 2)%R n n.
Definition fitted_shift (m : R -> R -> R) (n : Z) (d x0 y0 x y : R) : Prop :=
  exists a b c p q r,
    (forall a' b' c' p' q' r', surface_err m n d x0 y0 a b c p q r <= surface_err m n d x0 y0 a' b' c' p' q' r')%R /\
    (b ^ 2 - 4 * a * c <> 0)%R /\ stationary a b c p q x y.
(** Successive fits, each about the previous result with half its spacing. *)
Inductive fit_chain (m : R -> R -> R) (n : Z) : nat -> R -> R -> R -> R -> R -> Prop :=
| chain_done d x y : fit_chain m n O d x y x y
| chain_more k d x0 y0 x1 y1 x y : fitted_shift m n d x0 y0 x1 y1 -> fit_chain m n k (d / 2) x1 y1 x y ->
    fit_chain m n (S k) d x0 y0 x y.
(** One fit, or the best trial followed by nIter - 1 fits. *)
Definition lateral_search (m : R -> R -> R) (n nIter : Z) (d x y : R) : Prop :=
  if nIter =? 1 then fitted_shift m n d 0 0 x y
  else exists x1 y1, best_trial m n d 0 0 x1 y1 /\ fit_chain m n (Z.to_nat (nIter - 1)) d x1 y1 x y.
(** The N by N image [fm] is [fr] shifted circularly by dy rows and dx columns. *)
Definition window_shift (N : Z) (fr : Z -> Z -> R) (dy dx : Z) (fm : Z -> Z -> R) : Prop :=
  forall p q, 0 <= p < N -> 0 <= q < N -> fm p q = fr ((p - dy) mod N) ((q - dx) mod N).
(** The whole-pixel offsets the search starts from. *)
Definition starts fuel rnd meas diamEst (useCoarse : bool) xCoarse yCoarse xc yc : Prop :=
  if useCoarse then coarsely_locate_pupil_offset fuel rnd meas diamEst 3 = Some (Ok (xc, yc))
  else xc = ZnearestE xCoarse /\ yc = ZnearestE yCoarse.
