(** The trial grids a user asks for, over the reals. *)
From Coq Require Import ZArith Reals.
From Flocq Require Import Core BinarySingleNaN.
From Verif.Base Require Import F64.
Open Scope R_scope.

(** Finite and at most 2^400 in absolute value. *)
Definition moderate (x : f64) : Prop := is_finite x = true /\ Rabs (fval x) <= bpow radix2 400.
(** n positions [step] apart, centred on [est]. *)
Definition centred (n : Z) (step est : R) (i : Z) : R := est + (IZR i - IZR (n - 1) / 2) * step.
(** n positions evenly spread over [-limit, limit]. *)
Definition spread (n : Z) (limit : R) (i : Z) : R := - limit + 2 * limit * IZR i / IZR (n - 1).
(** A multiple of 2^-t of at most 2^50 / n units: then no sum or product in a grid of n such steps needs rounding. *)
Definition coarse_step (t n : Z) (x : f64) : Prop :=
  exists z : Z, is_finite x = true /\ fval x = IZR z / IZR (2 ^ t) /\ (Z.abs z * n <= 2 ^ 50)%Z.
