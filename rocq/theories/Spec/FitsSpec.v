(** Specifications for thresholding, extremum fits, centroids and plane removal. *)
From Coq Require Import ZArith Bool Reals.
From Verif.Base Require Import Py Arr Vec Sums.
Open Scope Z_scope.

(** Histogram with [n] equal bins from [lo] to [hi]: number of pixels in bin [k] (as a real). *)
Definition in_bin (lo hi : R) (n k : Z) (v : R) : Prop :=
  (lo + IZR k * (hi - lo) / IZR n <= v /\
   (v < lo + (IZR k + 1) * (hi - lo) / IZR n \/ (k = (n - 1)%Z /\ v = hi)))%R.
(** [c] is the number of pixels of [a] satisfying [P]. *)
Definition pixels_with (a : arr R) (P : R -> Prop) (c : R) : Prop :=
  exists f : Z -> Z -> R,
    (forall i j, in_arr a i j -> (P (at2 a i j) -> f i j = 1%R) /\ (~ P (at2 a i j) -> f i j = 0%R)) /\
    c = rsum2 f (nr a) (nc a).
Definition histogram (a : arr R) (lo hi : R) (n : Z) (H : Z -> R) : Prop :=
  forall k, 0 <= k < n -> pixels_with a (in_bin lo hi n k) (H k).
Definition valley (H : Z -> R) (k : Z) : Prop := (H k <= H (k - 1)%Z /\ H k < H (k + 1)%Z)%R.
Definition is_min (a : arr R) (v : R) : Prop :=
  (exists i j, in_arr a i j /\ at2 a i j = v) /\ forall i j, in_arr a i j -> (v <= at2 a i j)%R.
Definition is_max (a : arr R) (v : R) : Prop :=
  (exists i j, in_arr a i j /\ at2 a i j = v) /\ forall i j, in_arr a i j -> (at2 a i j <= v)%R.

(** Least-squares parabola: [p2 x^2 + p1 x + p0]. *)
Definition sq_err (xs ys : vec R) (p2 p1 p0 : R) : R :=
  rsum (fun i => (p2 * vat xs i ^ 2 + p1 * vat xs i + p0 - vat ys i) ^ 2)%R (vlen xs).
Definition best_parabola (xs ys : vec R) (p2 p1 p0 : R) : Prop :=
  forall q2 q1 q0, (sq_err xs ys p2 p1 p0 <= sq_err xs ys q2 q1 q0)%R.
Definition three_distinct (xs : vec R) : Prop :=
  exists i j k, 0 <= i < vlen xs /\ 0 <= j < vlen xs /\ 0 <= k < vlen xs /\
    vat xs i <> vat xs j /\ vat xs i <> vat xs k /\ vat xs j <> vat xs k.

(** Quadratic surfaces. *)
Definition quad2 (a b c d e f x y : R) : R := (a * x ^ 2 + b * x * y + c * y ^ 2 + d * x + e * y + f)%R.
(** A boolean mask: entries 0 (False) and 1 (True). *)
Definition bool_mask (m : arr R) : Prop := forall i j, in_arr m i j -> at2 m i j = 0%R \/ at2 m i j = 1%R.
(** Only the zero quadratic vanishes on every selected sample. *)
Definition unisolvent2 (xs ys : vec R) (m : arr R) : Prop :=
  forall a b c d e f, (forall i j, in_arr m i j -> at2 m i j <> 0%R ->
     quad2 a b c d e f (vat xs j) (vat ys i) = 0%R) ->
  (a = 0 /\ b = 0 /\ c = 0 /\ d = 0 /\ e = 0 /\ f = 0)%R.
(** Gradient zero at (x, y). *)
Definition stationary (a b c d e x y : R) : Prop :=
  (2 * a * x + b * y + d = 0 /\ b * x + 2 * c * y + e = 0)%R.

(** Sum over selected pixels. *)
Definition masked_sum (m : arr R) (f : Z -> Z -> R) : R :=
  rsum2 (fun i j => if Req_EM_T (at2 m i j) 0 then 0 else f i j)%R (nr m) (nc m).
Definition energy_sum (a : arr R) : R := rsum2 (at2 a) (nr a) (nc a).

(** Energy weighted by [w] inside the disc of the given radius about column [x0], row [y0]. *)
Definition in_disc (x0 y0 : Z) (radius : R) (i j : Z) : Prop :=
  (IZR (j - x0) ^ 2 + IZR (i - y0) ^ 2 <= radius ^ 2)%R.
Definition disc_energy (a : arr R) (x0 y0 : Z) (radius : R) (w : Z -> Z -> R) (s : R) : Prop :=
  exists f : Z -> Z -> R,
    (forall i j, in_arr a i j ->
      (in_disc x0 y0 radius i j -> f i j = (w i j * at2 a i j)%R) /\ (~ in_disc x0 y0 radius i j -> f i j = 0%R)) /\
    s = rsum2 f (nr a) (nc a).
(** Right minus left (column sign); top minus bottom (row sign). *)
Definition side_x (x0 : Z) (i j : Z) : R := IZR (Z.sgn (j - x0)).
Definition side_y (y0 : Z) (i j : Z) : R := IZR (Z.sgn (i - y0)).
(** The code's weights: pixels on the other axis are counted twice. *)
Definition code_side_x (x0 y0 : Z) (i j : Z) : R := (side_x x0 i j * if (i =? y0)%Z then 2 else 1)%R.
Definition code_side_y (x0 y0 : Z) (i j : Z) : R := (side_y y0 i j * if (j =? x0)%Z then 2 else 1)%R.

(** Mirror images and planes. *)
Definition flip_h (a : arr R) : arr R := Arr (nr a) (nc a) (fun i j => at2 a i (nc a - 1 - j)).
Definition flip_v (a : arr R) : arr R := Arr (nr a) (nc a) (fun i j => at2 a (nr a - 1 - i) j).
Definition plane_at (p q r : R) (i j : Z) : R := (p * IZR j + q * IZR i + r)%R.
