(** Specifications for the pupil fits. *)
From Coq Require Import ZArith Bool List Reals.
From Verif.Base Require Import Py Arr Vec Sums.
From Verif.Model Require Import Fits MaskGen.
From Verif.Spec Require Import UnwrapSpec PupilUtilSpec.
Open Scope Z_scope.

(** [n] is the smallest even integer that is at least [x]. *)
Definition least_even_above (x : R) (n : Z) : Prop :=
  Z.Even n /\ (x <= IZR n)%R /\ forall m, Z.Even m -> (x <= IZR m)%R -> n <= m.
(** The reference padded with at least zeroPadding pixels to an even square about its centre pixel. *)
Definition padded (maskRef : arr R) (zeroPadding : R) (maskPad : arr R) : Prop :=
  exists n, least_even_above (IZR (Z.max (nr maskRef) (nc maskRef)) + zeroPadding) n /\ recentred maskRef n n maskPad.
(** [c] pixels of the mask [m] differ by less than [delta] from the reference turned by [angle], scaled to diameter d,
    shifted by (x, y) and divided by the percentile q of its own bright part. *)
Definition agreement (rotate : arr R -> R -> arr R) (spline : vec R -> vec R -> arr R -> R -> R -> R) (m : arr bool)
    (d : R) (maskRef : arr R) (diamHigh x y q delta angle c : R) : Prop :=
  exists p r b f, rotate_shift_downsample rotate spline maskRef angle (d / diamHigh) x y 1 false = Ok p /\
    recentred p (nr m) (nc m) r /\ ampthresh r 21 = Ok b /\ is_percentile (values_where r (zero_one_of b)) q f /\
    counts (nr m) (nc m) (fun i j => f <> 0%R /\ (Rabs ((if at2 m i j then 1 else 0) - at2 r i j / f) < delta)%R) c.
(** x is not half-way between two integers. *)
Definition no_tie (x : R) : Prop := forall k, x <> (IZR k + / 2)%R.
(** Sum of [a] over the pixels of the mask. *)
Definition mask_total (m : arr bool) (a : arr R) : R := rsum2 (fun i j => if at2 m i j then at2 a i j else 0%R) (nr a) (nc a).
(** Area of an amplitude image: total over its bright part in units of the percentile q of that part. *)
Definition area (a : arr R) (q s : R) : Prop :=
  exists m f, ampthresh a 21 = Ok m /\ is_percentile (values_where a (zero_one_of m)) q f /\ (0 < f)%R /\ s = (mask_total m a / f)%R.
(** The mask of fit_pupil_zernikes: the one given, or the bright part of the amplitude, eroded if an element is given. *)
Definition fitted_mask (amp : arr R) (bMask : option (arr R)) (selem : option (arr bool)) (m : arr R) : Prop :=
  match bMask with
  | Some b => m = b
  | None => exists t e, ampthresh amp 21 = Ok t /\ match selem with Some s => eroded t s e | None => e = t end /\ m = zero_one_of e
  end.
