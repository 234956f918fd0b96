(** Terms used to state how accurate the rectangles and pupils are in double precision. *)
From Coq Require Import ZArith Bool List Reals.
From Flocq Require Import Core BinarySingleNaN.
From Verif.Base Require Import F64.
From Verif.Model Require Import ShapesG.
From Verif.Spec Require Import ShapesSpec ShapesFSpec.
Open Scope R_scope.

(** [v] is a finite double within 2^e of [r]. *)
Definition double_near (e : Z) (v : f64) (r : R) : Prop := is_finite v = true /\ Rabs (fval v - r) <= bpow radix2 e.
(** [a] is a polar angle of (x, y) between -pi and pi. *)
Definition polar_angle (x y a : R) : Prop :=
  Rabs a <= PI /\ x = sqrt (x ^ 2 + y ^ 2) * cos a /\ y = sqrt (x ^ 2 + y ^ 2) * sin a.
(** The C library's cos and sin are within 2^-52 for arguments up to 32, and arctan2 is within 2^-51. *)
Definition accurate_libm (M : libm) : Prop :=
  (forall t, double_within 5 t -> double_near (-52) (lcos M t) (cos (fval t)) /\ double_near (-52) (lsin M t) (sin (fval t))) /\
  (forall y x, is_finite y = true -> is_finite x = true ->
     exists a, polar_angle (fval x) (fval y) a /\ double_near (-51) (latan2 M y x) a).
(** Points within [e] (measured along the sides) of the border of the w by h rectangle turned by [t] radians: in the rectangle
    grown by [e] on every side, and not in the one shrunk by [e] on every side. *)
Definition rect_rim (w h t e x y : R) : Prop :=
  rect_set (w + 2 * e) (h + 2 * e) t x y /\
  ~ (Rabs (x * cos t + y * sin t) < w / 2 - e /\ Rabs (y * cos t - x * sin t) < h / 2 - e).
(** Arguments of rectangle() with sizes and offsets of at most 2^k pixels and a rotation of at most 1024 degrees. *)
Definition rect_args_upto (k nx ny : Z) (width height xo yo rot : f64) (ns : Z) : Prop :=
  (0 <= k <= 36)%Z /\ (1 < nx <= 2 ^ k)%Z /\ (0 < ny <= 2 ^ k)%Z /\ (1 <= ns <= 2 ^ 26)%Z /\
  double_within k width /\ double_within k height /\ double_within k xo /\ double_within k yo /\ double_within 10 rot /\
  0 < fval width /\ 0 < fval height.
(** [r] is the fraction of the subpixel centres of pixel (i, j) within [e] of the border of the strut at angle [t] degrees
    (see strut_cover). *)
Definition strut_rim (nx ny : Z) (xo yo D width : R) (ns : Z) (i j : Z) (e t r : R) : Prop :=
  coverage (rect_rim (6 / 10 * D) width (deg t) e) ns
    (px nx (xo + 3 / 10 * D * cos (deg t)) j) (px ny (yo + 3 / 10 * D * sin (deg t)) i) r.
(** Arguments of simple_pupil() with sizes and offsets of at most 2^k pixels and angles of at most 1024 degrees. Diameters
    are not so small that halving them would round. *)
Definition pupil_args_upto (k nx ny : Z) (xo yo dIn dOut : f64) (angs : list f64) (width : f64) (ns : Z) : Prop :=
  (0 <= k <= 35)%Z /\ (1 < nx <= 2 ^ k)%Z /\ (0 < ny <= 2 ^ k)%Z /\ (1 <= ns <= 2 ^ 26)%Z /\
  double_within k xo /\ double_within k yo /\ double_within k dIn /\ double_within k dOut /\ double_within k width /\
  Forall (double_within 10) angs /\ 0 <= fval width /\ fval dIn < fval dOut /\
  bpow radix2 (-1000) <= fval dOut /\ (fval dIn = 0 \/ bpow radix2 (-1000) <= fval dIn).
Definition total (l : list R) : R := fold_right Rplus 0 l.
