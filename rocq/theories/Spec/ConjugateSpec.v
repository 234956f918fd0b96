(** Specifications for flatten: dead actuators, Zernike bands, rms over usable pixels. *)
From Coq Require Import ZArith Bool Reals List.
From Flocq Require Import Core.
From Verif.Base Require Import Py Arr Vec Sums.
From Verif.Model Require Import PadCrop Dm Conjugate.
From Verif.Spec Require Import DmSpec.
Import ListNotations.
Open Scope Z_scope.

(** A tie map marks dead actuators with -1. *)
Definition dead (tie : arr Z) (i j : Z) : Prop := at2 tie i j = -1.

(** Sum over the usable pixels, number of usable pixels, rms over them. *)
Definition use_sum (use : arr bool) (f : Z -> Z -> R) : R :=
  rsum2 (fun i j => if at2 use i j then f i j else 0%R) (nr use) (nc use).
Definition some_usable (use : arr bool) : Prop := exists i j, in_arr use i j /\ at2 use i j = true.
Definition rms_on (use : arr bool) (f : Z -> Z -> R) (v : R) : Prop :=
  (0 <= v /\ v ^ 2 * use_sum use (fun _ _ => 1) = use_sum use (fun i j => f i j ^ 2))%R.
(** The split fraction [alpha] gives DM1 (high orders plus [alpha] of the low orders) and DM2 (the rest of
    the low orders) the same rms phase. *)
Definition equalises (use : arr bool) (low high : arr R) (alpha : R) : Prop :=
  exists r, rms_on use (fun i j => at2 high i j + alpha * at2 low i j)%R r /\
            rms_on use (fun i j => (1 - alpha) * at2 low i j)%R r.

(** Combination of Noll modes lo..hi at (x, y); coefficient k of the list belongs to mode k+1, missing
    coefficients are 0. *)
Definition band (Zf : Z -> R -> R -> R) (coefs : list R) (lo hi : Z) (x y : R) : R :=
  rsum (fun i => nth (Z.to_nat (lo + i - 1)) coefs 0 * Zf (lo + i)%Z x y)%R (hi - lo + 1).
(** Coordinates of pixel (r, c) of an h x w map about the centre pixel shifted by (xo, yo). *)
Definition px_x (w : Z) (xo : R) (c : Z) : R := (IZR (c - w / 2) - xo)%R.

(** scipy.optimize.fminbound in exact arithmetic: it stays in the bounds; [exact_fmin]: it returns a global
    minimiser of the function. *)
Definition bounded_fmin (fmin : fmin_fun) : Prop :=
  forall f lo hi, (lo <= hi)%R -> (lo <= fmin f lo hi <= hi)%R.
Definition minimises (f : R -> res (option R)) (lo hi x : R) : Prop :=
  (lo <= x <= hi)%R /\ forall c, f x = Ok (Some c) ->
  forall y d, (lo <= y <= hi)%R -> f y = Ok (Some d) -> (c <= d)%R.
Definition exact_fmin (fmin : fmin_fun) : Prop :=
  forall f lo hi, (lo <= hi)%R -> (exists x, minimises f lo hi x) -> minimises f lo hi (fmin f lo hi).

(** A smoothing kernel: non-negative weights with total 1. *)
Definition averaging (k : arr R) : Prop :=
  0 <= nr k /\ 0 <= nc k /\ (forall i j, in_arr k i j -> (0 <= at2 k i j)%R) /\
  rsum2 (at2 k) (nr k) (nc k) = 1%R.

(** Values over the usable pixels of the crop. *)
Definition is_min_on (use : arr bool) (a : arr R) (v : R) : Prop :=
  (exists i j, in_arr a i j /\ at2 use i j = true /\ at2 a i j = v) /\
  forall i j, in_arr a i j -> at2 use i j = true -> (v <= at2 a i j)%R.
Definition is_max_on (use : arr bool) (a : arr R) (v : R) : Prop :=
  (exists i j, in_arr a i j /\ at2 use i j = true /\ at2 a i j = v) /\
  forall i j, in_arr a i j -> at2 use i j = true -> (at2 a i j <= v)%R.
(** Size of the map on which flatten works: twice the larger DM, in pixels. *)
Definition map_h (dm1 dm2 : dm_config) : Z :=
  Z.max (ZnearestE (2 * IZR (c_nact dm1) * c_ppact_cy dm1)) (ZnearestE (2 * IZR (c_nact dm2) * c_ppact_cy dm2)).
Definition map_w (dm1 dm2 : dm_config) : Z :=
  Z.max (ZnearestE (2 * IZR (c_nact dm1) * c_ppact_cx dm1)) (ZnearestE (2 * IZR (c_nact dm2) * c_ppact_cx dm2)).


(** scipy's routines. The bivariate spline interpolates its samples; rotation by 0 does nothing; a shift by
    whole pixels moves the samples and fills with zeros. *)
Definition grid_spline (f : (Z -> R) -> (Z -> R) -> arr R -> R -> R -> R) : Prop :=
  forall ys xs a i j, (forall k l, k < l -> (ys k < ys l)%R) -> (forall k l, k < l -> (xs k < xs l)%R) ->
    in_arr a i j -> f ys xs a (ys i) (xs j) = at2 a i j.
Definition kernel_spline (sp : R -> arr R -> R -> R -> R) : Prop :=
  forall ppa a i j, (0 < ppa)%R -> in_arr a i j ->
    sp ppa a ((IZR i - (IZR (nr a) - 1) / 2) / ppa)%R ((IZR j - (IZR (nc a) - 1) / 2) / ppa)%R = at2 a i j.
Definition no_rotation (rot : arr R -> R -> arr R) : Prop := forall a, aeq (rot a 0%R) a.
Definition whole_shift (shift : arr R -> R -> R -> arr R) : Prop :=
  forall a m n, nr (shift a (IZR m) (IZR n)) = nr a /\ nc (shift a (IZR m) (IZR n)) = nc a /\
    forall i j, in_arr a i j -> at2 (shift a (IZR m) (IZR n)) i j =
      if in_arrb a (i - m) (j - n) then at2 a (i - m) (j - n) else 0%R.
(** Operations that map the zero surface to the zero surface. *)
Definition zero_arr (a : arr R) : Prop := forall i j, in_arr a i j -> at2 a i j = 0%R.
Definition keeps_zero (ops : conv_ops) : Prop :=
  (forall a t, zero_arr a -> zero_arr (co_rotate ops a t)) /\
  (forall ys xs a y x, zero_arr a -> co_bispline ops ys xs a y x = 0%R).

(** Position of actuator (r, c) of a DM that is not clocked: (u, v) pixels from the centre pixel of the pupil,
    in the convention of the DM surface that dmhtoph renders. *)
Definition actuator_at (dm : dm_config) (r c u v : Z) : Prop :=
  (IZR u = (IZR r - (IZR (c_nact dm) - 1) / 2) * c_ppact_cy dm + c_dy dm)%R /\
  (IZR v = (if c_flipx dm then -1 else 1) * ((IZR c - (IZR (c_nact dm) - 1) / 2) * c_ppact_cx dm) + c_dx dm)%R.
(** Actuator heights, in radians, by which commands went down; [gain] is in height per volt. *)
Definition lowered (lam : R) (gain before after : arr R) : arr R :=
  Arr (nr before) (nc before) (fun i j => (at2 before i j - at2 after i j) * at2 gain i j * (2 * PI) / lam)%R.
(** The wavefront that the DMs are asked to remove at the offset (u, v) from the centre pixel: with high
    orders all of the phase but piston, tip and tilt (and focus, if the focus mechanism takes it); without,
    the fitted modes from focus (or from mode 5) on. *)
Definition to_remove (useFCM high : bool) (maxNoll : Z) (Zf : Z -> R -> R -> R) (coef : list R) (ph : arr R)
    (xo yo : R) (u v : Z) : R :=
  let x := (IZR v - xo)%R in let y := (IZR u - yo)%R in
  if high then (at0 ph (u + nr ph / 2) (v + nc ph / 2) - band Zf coef 1 3 x y
                - (if useFCM then band Zf coef 4 4 x y else 0))%R
  else band Zf coef (if useFCM then 5 else 4) maxNoll x y.
(** A DM without clocking whose influence function resamples to the symmetric odd-sized [k], whose response
    is invertible, with gains that are never 0; a mirrored one without horizontal offset. *)
Definition regular_dm (ops : conv_ops) (dm : dm_config) (k : arr R) : Prop :=
  c_thact dm = 0%R /\ (c_flipx dm = true -> c_dx dm = 0%R) /\
  resample_inf_func (co_spline2 ops) (c_inf dm) (c_ppact_d dm) 1 = Ok k /\
  nr k mod 2 = 1 /\ nc k mod 2 = 1 /\ point_symmetric k /\
  (forall A, build_prefilter (co_spline2 ops) (c_nact dm) (c_nact dm) (c_inf dm) (c_ppact_d dm) = Ok A ->
     nonsingular (sdim A) (sat A)) /\
  (forall i j, in_arr (c_gain dm) i j -> at2 (c_gain dm) i j <> 0%R).
(** Python's round(): the nearest integer, the even one of two. *)
Definition rounds_half_even (x : R) (w : Z) : Prop :=
  (Rabs (x - IZR w) <= / 2)%R /\ (Rabs (x - IZR w) = / 2 -> Z.even w = true)%R.
(** [s'] is [s] after one smoothing by the box of width [w] and resetting of the usable pixels to [half]. *)
Definition smoothed_once (ker : kernel_fun) (w : Z) (use : arr bool) (half s s' : arr R) : Prop :=
  nr s' = nr s /\ nc s' = nc s /\
  forall i j, in_arr s i j -> at2 s' i j = if at2 use i j then at2 half i j else at2 (convolve_same s (ker (IZR w))) i j.
