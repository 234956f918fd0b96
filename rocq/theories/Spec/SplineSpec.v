(** SciPy's interp1d(kind='cubic') and RectBivariateSpline: the not-a-knot cubic spline. *)
From Coq Require Import ZArith List Reals Sorted Permutation.
From Verif.Base Require Import Arr.
Import ListNotations.
Open Scope R_scope.

(** A cubic polynomial and its first and second derivatives. *)
Record cubic := Cubic { q0 : R; q1 : R; q2 : R; q3 : R }.
Definition val (p : cubic) (x : R) : R := q0 p + q1 p * x + q2 p * x ^ 2 + q3 p * x ^ 3.
Definition slope (p : cubic) (x : R) : R := q1 p + 2 * q2 p * x + 3 * q3 p * x ^ 2.
Definition bend (p : cubic) (x : R) : R := 2 * q2 p + 6 * q3 p * x.
(** The abscissa and ordinate of the k-th point. *)
Definition knot (l : list (R * R)) (k : nat) : R := fst (nth k l (0, 0)).
Definition level (l : list (R * R)) (k : nat) : R := snd (nth k l (0, 0)).
(** [s] passes through the points, is one cubic between neighbouring knots, has continuous first and second derivatives,
    and its third derivative does not jump at the second and at the last but one knot. *)
Definition cubic_spline (l : list (R * R)) (s : R -> R) : Prop := exists piece : nat -> cubic,
  (forall k x, (k + 1 < length l)%nat -> knot l k <= x <= knot l (k + 1) -> s x = val (piece k) x) /\
  (forall k, (k < length l)%nat -> s (knot l k) = level l k) /\
  (forall k, (k + 2 < length l)%nat ->
     slope (piece k) (knot l (k + 1)) = slope (piece (k + 1)%nat) (knot l (k + 1)) /\
     bend (piece k) (knot l (k + 1)) = bend (piece (k + 1)%nat) (knot l (k + 1))) /\
  q3 (piece 0%nat) = q3 (piece 1%nat) /\
  q3 (piece (length l - 3)%nat) = q3 (piece (length l - 2)%nat).
(** What is required of SciPy: given at least four points with distinct abscissae, in any order, it evaluates the spline
    through the points sorted by abscissa. *)
Definition scipy_cubic (spline : list (R * R) -> R -> R) : Prop :=
  forall l sorted, (4 <= length l)%nat -> Permutation l sorted -> StronglySorted Rlt (map fst sorted) ->
  cubic_spline sorted (spline l).

(** The points (xs 0, v 0), ..., (xs (n-1), v (n-1)). *)
Definition samples (n : Z) (xs v : Z -> R) : list (R * R) := map (fun k => (xs k, v k)) (zrange n).
(** The two-dimensional spline: along every row the spline through the samples of the row, and along every column the
    spline through the values of those row splines. *)
Definition bicubic_spline (ys xs : Z -> R) (a : arr R) (f : R -> R -> R) : Prop := exists row : Z -> R -> R,
  (forall i, (0 <= i < nr a)%Z -> cubic_spline (samples (nc a) xs (at2 a i)) (row i)) /\
  forall x, xs 0%Z <= x <= xs (nc a - 1)%Z -> cubic_spline (samples (nr a) ys (fun i => row i x)) (fun y => f y x).
(** The nearest point of an interval. *)
Definition nearest_in (lo hi x : R) : R := Rmax lo (Rmin x hi).
(** A polynomial of degree at most three in each of two variables. *)
Definition bicubic (c : nat -> cubic) (y x : R) : R := val (c 0%nat) x + val (c 1%nat) x * y + val (c 2%nat) x * y ^ 2 + val (c 3%nat) x * y ^ 3.
