(** What is required of SciPy's RectBivariateSpline where the code calls it: it evaluates the not-a-knot bicubic spline,
    at the nearest point of the grid for positions outside. *)
From Coq Require Import ZArith Reals.
From Verif.Base Require Import Arr Vec.
From Verif.Model Require Import Dm.
From Verif.Spec Require Import SplineSpec.
Open Scope Z_scope.

Definition grows (n : Z) (xs : Z -> R) : Prop := forall k l, 0 <= k < l -> l < n -> (xs k < xs l)%R.
(** In general, on increasing grids with at least four samples per axis. *)
Definition scipy_bicubic (spline : (Z -> R) -> (Z -> R) -> arr R -> R -> R -> R) : Prop := forall ys xs a,
  4 <= nr a -> 4 <= nc a -> grows (nr a) ys -> grows (nc a) xs ->
  bicubic_spline ys xs a (spline ys xs a) /\
  forall y x, spline ys xs a y x = spline ys xs a (nearest_in (ys 0) (ys (nr a - 1)) y) (nearest_in (xs 0) (xs (nc a - 1)) x).
(** On grids given as vectors. *)
Definition scipy_bicubic_vec (spline : vec R -> vec R -> arr R -> R -> R -> R) : Prop := forall ys xs a,
  4 <= nr a -> 4 <= nc a -> vlen ys = nr a -> vlen xs = nc a -> grows (nr a) (vat ys) -> grows (nc a) (vat xs) ->
  bicubic_spline (vat ys) (vat xs) a (spline ys xs a) /\
  forall y x, spline ys xs a y x = spline ys xs a (nearest_in (vat ys 0) (vat ys (nr a - 1)) y) (nearest_in (vat xs 0) (vat xs (nc a - 1)) x).
(** [n] points with spacing 1/p, centred on the origin. *)
Definition centred (n : Z) (p : R) (i : Z) : R := ((IZR i - (IZR n - 1) / 2) / p)%R.
(** On the centred grids of dmhtoph and of resample_inf_func. *)
Definition scipy_bicubic_dm (ops : scipy_ops) : Prop := forall n ppd a, 4 <= n -> 0 < ppd -> nr a = n -> nc a = n ->
  bicubic_spline (centred n (IZR ppd)) (centred n (IZR ppd)) a (sp_interp ops n ppd a).
Definition scipy_bicubic_kernel (sp : spline2_fun) : Prop := forall ppa a, 4 <= nr a -> 4 <= nc a -> (0 < ppa)%R ->
  bicubic_spline (centred (nr a) ppa) (centred (nc a) ppa) a (sp ppa a) /\
  forall y x, sp ppa a y x = sp ppa a (nearest_in (centred (nr a) ppa 0) (centred (nr a) ppa (nr a - 1)) y)
                                      (nearest_in (centred (nc a) ppa 0) (centred (nc a) ppa (nc a - 1)) x).
(** Pixel positions counted from the centre pixel, and the nearest such position. *)
Definition pixel (n i : Z) : R := IZR (i - n / 2).
Definition inside (n : Z) (x : R) : R := nearest_in (pixel n 0) (pixel n (n - 1)) x.
(** Mirroring columns sends the position x to its mirror image about the middle of the array. *)
Definition mirrored (n : Z) (x : R) : R := (pixel n 0 + pixel n (n - 1) - x)%R.
