(** C29: energy balance of images of any sum. *)
From Coq Require Import ZArith List Reals.
From Verif.Base Require Import Py Arr Sums.
From Verif.Model Require Import Fits FocalFit QuadNum.
From Verif.Spec Require Import FitsSpec.
From Verif.Proofs Require Import QuadNumP.
Import ListNotations.
Open Scope Z_scope.

(** C29. With a non-zero image sum both results are finite (the values of C29_balance_partial) ... *)
Theorem C29_finite : forall image x0 y0 radius, energy_sum image <> 0%R ->
  quadrant_energy_balance_num image x0 y0 radius =
  match quadrant_energy_balance image x0 y0 radius with Ok (bx, by_) => Ok (Fin bx, Fin by_) | Err e => Err e end.
Proof. exact quad_num_finite. Qed.
Print Assumptions C29_finite.
(** ... and with a zero sum, such as a dark image, both are nan, not 0, for every origin in the image. *)
Theorem C29_zero_sum : forall image x0 y0 radius, (0 <= radius)%R -> 0 <= x0 < nr image -> 0 <= y0 < nc image ->
  x0 < nc image -> y0 < nr image -> energy_sum image = 0%R ->
  quadrant_energy_balance_num image x0 y0 radius = Ok (NaN, NaN).
Proof. exact quad_num_zero. Qed.
Print Assumptions C29_zero_sum.
(** A dark image, and one of zero mean. *)
Example C29_dark : quadrant_energy_balance_num (afull 3 3 0%R) 1 1 2 = Ok (NaN, NaN) /\
  quadrant_energy_balance_num (Arr 2 2 (fun i j => if i =? j then 1 else -1)%R) 0 1 1 = Ok (NaN, NaN).
Proof. exact quad_num_ex. Qed.
