(** Terms used to state what the dark-hole shapes do in double precision. *)
From Coq Require Import ZArith Bool Reals.
From Flocq Require Import Core BinarySingleNaN.
From Verif.Base Require Import F64.
From Verif.Spec Require Import ShapesFSpec.
Open Scope R_scope.

(** A double that is a multiple of 2^-t pixels, of at most 2^(23-t) pixels. *)
Definition grid_length (t : Z) (x : f64) : Prop :=
  is_finite x = true /\ exists z, fval x = IZR z / IZR (2 ^ t) /\ (Z.abs z <= 2 ^ 23)%Z.
(** An array of at most 2^(23-t) pixels along each axis. *)
Definition grid_size (t nRows nCols : Z) : Prop :=
  (0 <= t <= 22)%Z /\ (0 < nRows)%Z /\ (nRows * 2 ^ t <= 2 ^ 23)%Z /\ (0 < nCols)%Z /\ (nCols * 2 ^ t <= 2 ^ 23)%Z.
(** An array and a centre of at most 2^k pixels. *)
Definition frame_upto (k nRows nCols : Z) (xo yo : f64) : Prop :=
  (0 <= k <= 40)%Z /\ (0 < nRows <= 2 ^ k)%Z /\ (0 < nCols <= 2 ^ k)%Z /\ double_within k xo /\ double_within k yo.
(** Distance of the point (x, y) from (xo, yo). *)
Definition distance (xo yo x y : R) : R := sqrt ((x - xo) ^ 2 + (y - yo) ^ 2).
