(** Discs, centred masks, and what a resampling spline does, for the properties of maskgen. *)
From Coq Require Import ZArith Bool List Reals.
From Coquelicot Require Import Complex.
From Verif.Base Require Import Py Arr Vec Sums CSum.
Open Scope Z_scope.

(** Value of a mask [dy] rows and [dx] columns away from its centre pixel; zero outside the array. *)
Definition off_centre (a : arr R) (dy dx : Z) : R :=
  if in_arrb a (nr a / 2 + dy) (nc a / 2 + dx) then at2 a (nr a / 2 + dy) (nc a / 2 + dx) else 0%R.
(** The same after an optional left-right flip about the centre pixel. *)
Definition flipped (a : arr R) (f : bool) (dy dx : Z) : R := off_centre a dy (if f then - dx else dx).
(** [n] is the smallest odd integer that is at least [x]. *)
Definition least_odd_above (x : R) (n : Z) : Prop :=
  Z.Odd n /\ (x <= IZR n)%R /\ forall m, Z.Odd m -> (x <= IZR m)%R -> n <= m.

(** Sum and mean of [f] over the integer points of a disc of radius [r] that lie in the square [-h, h]^2. *)
Definition disc_sum (h : Z) (r : R) (f : Z -> Z -> R) : R :=
  rsum2 (fun a b => if Rle_dec (IZR ((a - h) * (a - h) + (b - h) * (b - h))) (r * r) then f (a - h) (b - h) else 0%R)
    (2 * h + 1) (2 * h + 1).
Definition disc_mean (h : Z) (r : R) (f : Z -> Z -> R) : R := (disc_sum h r f / disc_sum h r (fun _ _ => 1))%R.
(** Representative of [d] modulo 2 h + 1 in [-h, h]. *)
Definition wrap (h d : Z) : Z := (d + h) mod (2 * h + 1) - h.
(** The mask averaged over discs of radius [r], periodic with period 2 h + 1. *)
Definition smoothed (h : Z) (r : R) (f : Z -> Z -> R) (dy dx : Z) : R :=
  disc_mean h r (fun k l => f (wrap h (dy - k)) (wrap h (dx - l))).

Definition increasing (v : vec R) : Prop := forall i j, 0 <= i < j -> j < vlen v -> (vat v i < vat v j)%R.
Definition clamp (v : vec R) (y : R) : R := Rmax (vat v 0) (Rmin y (vat v (vlen v - 1))).
(** An interpolating spline on a grid, constant beyond the edges of the grid. *)
Definition good_spline (spline : vec R -> vec R -> arr R -> R -> R -> R) : Prop :=
  forall ys xs a, increasing ys -> increasing xs -> 4 <= vlen ys -> 4 <= vlen xs -> nr a = vlen ys -> nc a = vlen xs ->
  (forall i j, in_arr a i j -> spline ys xs a (vat ys i) (vat xs j) = at2 a i j) /\
  (forall y x, spline ys xs a y x = spline ys xs a (clamp ys y) (clamp xs x)).
(** Nearest value in [-h, h]. *)
Definition clampZ (h d : Z) : Z := Z.max (- h) (Z.min h d).
(** Mean of a complex array. *)
Definition cmean_of (a : arr C) : C := (csum2 (at2 a) (nr a) (nc a) / RtoC (IZR (nr a) * IZR (nc a)))%C.
(** Resampling routines that map a zero image to zero. *)
Definition keeps_zero_spline (spline : vec R -> vec R -> arr R -> R -> R -> R) : Prop :=
  forall ys xs a y x, 4 <= vlen ys -> 4 <= vlen xs -> nr a = vlen ys -> nc a = vlen xs -> (forall i j, in_arr a i j -> at2 a i j = 0%R) -> spline ys xs a y x = 0%R.
Definition keeps_zero_rotate (rotate : arr R -> R -> arr R) : Prop :=
  forall a d, nr (rotate a d) = nr a /\ nc (rotate a d) = nc a /\
    ((forall i j, in_arr a i j -> at2 a i j = 0%R) -> forall i j, in_arr a i j -> at2 (rotate a d) i j = 0%R).
(** Sum over the square [-h, h]^2. *)
Definition centred_sum (h : Z) (f : Z -> Z -> R) : R := rsum2 (fun i j => f (i - h) (j - h)) (2 * h + 1) (2 * h + 1).
(** The sampling grid -h, ..., h. *)
Definition whole_grid (h : Z) (v : vec R) : Prop := vlen v = 2 * h + 1 /\ forall i, 0 <= i < 2 * h + 1 -> vat v i = IZR (i - h).
