(** Properties C08 and C09: ceil_even, ceil_odd, rms, cart2pol. *)
From Coq Require Import ZArith Reals List String Bool Lia Lra.
From Flocq Require Import Core BinarySingleNaN.
From Verif.Base Require Import Py F64 Arr Trig.
From Verif.Model Require Import Math.
From Verif.Spec Require Import MathSpec.
From Verif.Proofs Require Import MathP.
Import ListNotations.
Open Scope Z_scope.

(** C08. The least even integer not below x; it is below x + 2. *)
Theorem C08_ceil_even : forall x : R,
  Z.Even (ceil_even x) /\ (x <= IZR (ceil_even x) < x + 2)%R /\
  (forall z, Z.Even z -> (x <= IZR z)%R -> ceil_even x <= z).
Proof. exact ceil_even_ok. Qed.
Print Assumptions C08_ceil_even.
Theorem C08_ceil_odd : forall x : R,
  Z.Odd (ceil_odd x) /\ (x <= IZR (ceil_odd x) < x + 2)%R /\
  (forall z, Z.Odd z -> (x <= IZR z)%R -> ceil_odd x <= z).
Proof. exact ceil_odd_ok. Qed.
Print Assumptions C08_ceil_odd.
Theorem C08_ceil_monotone : forall x y : R, (x <= y)%R ->
  ceil_even x <= ceil_even y /\ ceil_odd x <= ceil_odd y.
Proof. exact (fun x y H => conj (ceil_even_mono x y H) (ceil_odd_mono x y H)). Qed.
Print Assumptions C08_ceil_monotone.
Theorem C08_ceil_fixpoints : forall z : Z,
  (Z.Even z -> ceil_even (IZR z) = z) /\ (Z.Odd z -> ceil_odd (IZR z) = z).
Proof. exact (fun z => conj (ceil_even_fix z) (ceil_odd_fix z)). Qed.
Print Assumptions C08_ceil_fixpoints.
Example C08_ex : ceil_even 5 = 6 /\ ceil_odd 4 = 5.
Proof.
  split; [unfold ceil_even; rewrite (Zceil_unique _ 3) by lra; reflexivity|].
  unfold ceil_odd. rewrite (Zceil_unique 4 4) by lra. reflexivity.
Qed.

(** C08. In binary64 both functions return the exact-arithmetic value for every finite input, save
    that ceil_even misses the smallest positive double 2^-1074; they raise on NaN and infinities. *)
Theorem C08_ceil_even_binary64 : forall x : f64,
  is_finite x = true -> fval x <> bpow radix2 (-1074) -> ceil_even_f x = Ok (ceil_even (fval x)).
Proof. exact ceil_even_f_ok. Qed.
Print Assumptions C08_ceil_even_binary64.
Theorem C08_ceil_odd_binary64 : forall x : f64,
  is_finite x = true -> ceil_odd_f x = Ok (ceil_odd (fval x)).
Proof. exact ceil_odd_f_ok. Qed.
Print Assumptions C08_ceil_odd_binary64.
Theorem C08_ceil_nonfinite : forall x : f64, is_finite x = false ->
  ceil_even_f x = Err (if is_nan x then ValueError else Custom "OverflowError") /\
  ceil_odd_f x = Err (if is_nan x then ValueError else Custom "OverflowError").
Proof. exact ceil_f_nonfinite. Qed.
Print Assumptions C08_ceil_nonfinite.
Theorem C08_ceil_even_all_doubles_refuted :
  exists x : f64, is_finite x = true /\ (0 < fval x)%R /\ ceil_even_f x = Ok 0.
Proof. exact ceil_even_f_refuted. Qed.
Print Assumptions C08_ceil_even_all_doubles_refuted.
Example C08_f_ex : ceil_even_f (fofZ 5) = Ok 6 /\ is_finite (fofZ 5) = true.
Proof. split; vm_compute; reflexivity. Qed.

(** C09. rms of a non-empty array: non-negative, n rms^2 = sum of squares, zero exactly for the zero
    array, bounded by any bound on |a|; homogeneous. *)
Theorem C09_rms : forall l : list R, l <> [] -> exists r, rms l = Some r /\ (0 <= r)%R /\
  (INR (List.length l) * r ^ 2 = fold_right Rplus 0 (map (fun a => a ^ 2) l))%R /\
  (r = 0%R <-> forall a, In a l -> a = 0%R) /\
  (forall M, (forall a, In a l -> Rabs a <= M)%R -> (r <= M)%R).
Proof. exact rms_ok. Qed.
Print Assumptions C09_rms.
Theorem C09_rms_homogeneous : forall c l r,
  rms l = Some r -> rms (map (fun a => (c * a)%R) l) = Some (Rabs c * r)%R.
Proof. exact rms_scal. Qed.
Print Assumptions C09_rms_homogeneous.
Example C09_rms_ex : rms [3; -3]%R = Some 3%R.
Proof.
  unfold rms. cbn [map sum_list fold_right List.length INR]. f_equal.
  replace ((3 ^ 2 + ((-3) ^ 2 + 0)) / (1 + 1))%R with (3 ^ 2)%R by field.
  apply sqrt_pow2. lra.
Qed.

(** C09. cart2pol returns the polar coordinates, pointwise on arrays; they are unique off the
    origin. Mismatched shapes raise ValueError, an array with a scalar TypeError. *)
Theorem C09_cart2pol_scalar : forall x y, exists rho theta,
  cart2pol (Scal x) (Scal y) = Ok (Scal rho, Scal theta) /\ polar_of x y rho theta.
Proof. exact cart2pol_scalar. Qed.
Print Assumptions C09_cart2pol_scalar.
Theorem C09_cart2pol_array : forall a b : arr R, nr a = nr b -> nc a = nc b -> exists rho theta,
  cart2pol (Arr2 a) (Arr2 b) = Ok (Arr2 rho, Arr2 theta) /\
  nr rho = nr a /\ nc rho = nc a /\ nr theta = nr a /\ nc theta = nc a /\
  forall i j, in_arr a i j -> polar_of (at2 a i j) (at2 b i j) (at2 rho i j) (at2 theta i j).
Proof. exact cart2pol_array. Qed.
Print Assumptions C09_cart2pol_array.
Theorem C09_polar_unique : forall x y r t r' t', (x <> 0 \/ y <> 0)%R ->
  polar_of x y r t -> polar_of x y r' t' -> r = r' /\ t = t'.
Proof. exact polar_unique. Qed.
Print Assumptions C09_polar_unique.
Theorem C09_cart2pol_errors :
  (forall a b : arr R, nr a <> nr b \/ nc a <> nc b -> cart2pol (Arr2 a) (Arr2 b) = Err ValueError) /\
  (forall (a : arr R) y, cart2pol (Arr2 a) (Scal y) = Err TypeError) /\
  (forall x (b : arr R), cart2pol (Scal x) (Arr2 b) = Err TypeError).
Proof. exact cart2pol_errors. Qed.
Print Assumptions C09_cart2pol_errors.
Example C09_polar_ex : polar_of (-2) 0 2 PI.
Proof. unfold polar_of. pose proof PI_RGT_0. rewrite cos_PI, sin_PI. lra. Qed.
