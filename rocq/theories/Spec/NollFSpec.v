(** What is assumed of the numerical routines xyzern calls, and the size of the Zernike coefficients. *)
From Coq Require Import ZArith Reals.
From Flocq Require Import Core BinarySingleNaN.
From Verif.Base Require Import F64 Sums.
From Verif.Spec Require Import ZernikeSpec.
Local Open Scope R_scope.

(** Lengths: within two units of the last place. *)
Definition hypot_ok (h : f64 -> f64 -> f64) : Prop :=
  forall x y, is_finite x = true -> is_finite y = true -> Rabs (fval x) <= bpow radix2 500 -> Rabs (fval y) <= bpow radix2 500 ->
  let d := sqrt (fval x * fval x + fval y * fval y) in
  is_finite (h x y) = true /\ Rabs (fval (h x y) - d) <= bpow radix2 (-52) * d + bpow radix2 (-1074).
(** Angles: within 2^-51 of an angle of the point; either end of the branch cut will do. *)
Definition atan2_ok (f : f64 -> f64 -> f64) : Prop :=
  forall x y, is_finite x = true -> is_finite y = true ->
  let d := sqrt (fval x * fval x + fval y * fval y) in
  exists th, Rabs th <= 4 /\ d * cos th = fval x /\ d * sin th = fval y /\
    is_finite (f y x) = true /\ Rabs (fval (f y x) - th) <= bpow radix2 (-51).
(** Cosines and sines of moderate angles: within 2^-52. *)
Definition trig_ok (f : f64 -> f64) (F : R -> R) : Prop :=
  forall t, is_finite t = true -> Rabs (fval t) <= 1024 -> is_finite (f t) = true /\ Rabs (fval (f t) - F (fval t)) <= bpow radix2 (-52).
(** Gamma at integers: exact as long as the factorial has at most 53 significant bits, ... *)
Definition gamma_exact (g : Z -> f64) : Prop :=
  forall z, (1 <= z <= 23)%Z -> is_finite (g z) = true /\ fval (g z) = zfact (z - 1).
(** ... within 2^-30 up to the largest factorial below 2^1024, which is 170!, and infinite beyond. *)
Definition gamma_near (g : Z -> f64) : Prop :=
  (forall z, (1 <= z <= 171)%Z -> is_finite (g z) = true /\ Rabs (fval (g z) - zfact (z - 1)) <= bpow radix2 (-30) * zfact (z - 1)) /\
  (forall z, (172 <= z)%Z -> g z = B754_infinity false).

(** Sum of the magnitudes of the coefficients of a radial polynomial. *)
Definition coef_sum (n m : Z) : R := rsum (fun k => Rabs (radial_coef n m k)) ((n - m) / 2 + 1).
