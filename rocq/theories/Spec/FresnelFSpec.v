(** What is asked of the library calls of the Fresnel propagation in double precision, and the sizes of its inputs. *)
From Coq Require Import ZArith Reals Bool List String.
From Coquelicot Require Import Complex.
From Flocq Require Import Core BinarySingleNaN.
From Verif.Base Require Import Py F64 Arr Sums.
From Verif.Model Require Import PadCrop MftF.
From Verif.Spec Require Import FresnelSpec MftFSpec RefuseSpec.
Import ListNotations.
Local Open Scope R_scope.

(** Squares of Python floats: no exception and one part in 2^52 where the square is far from overflow. *)
Definition pow2_ok (pw : f64 -> option f64) : Prop :=
  forall x, is_finite x = true -> Rabs (fval x) <= bpow radix2 500 ->
  exists p, pw x = Some p /\ is_finite p = true /\
    Rabs (fval p - fval x ^ 2) <= bpow radix2 (-52) * fval x ^ 2 + bpow radix2 (-1074).
(** The hypotenuse of the zero vector is zero. *)
Definition hypot_zero (h : f64 -> f64 -> f64) : Prop := fval (h (fofZ 0) (fofZ 0)) = 0.
(** Distances: zero, or of a size between 2^-100 and 2^100 metres. *)
Definition usable_distance (z : f64) : Prop :=
  is_finite z = true /\ (fval z = 0 \/ bpow radix2 (-100) <= Rabs (fval z) <= bpow radix2 100).
(** The number of points across that the angular spectrum criterion asks for: lam |z| ppm^2. *)
Definition points_needed (lam z ppm : R) : R := lam * Rabs z * ppm ^ 2.
(** The size of the quadratic phase at the frequency of pixel (k,l). *)
Definition phase_size (lam z ppm : R) (n k l : Z) : R :=
  PI * lam * Rabs z * ((IZR (l - n / 2) * ppm / IZR n) ^ 2 + (IZR (k - n / 2) * ppm / IZR n) ^ 2).
(** The conditions of get_fp, in the order of its checks. The criterion is that of the rounded product. *)
Definition get_fp_f_needs (pw : f64 -> option f64) (lam z : f64) (nx : Z) (ppm : f64) : list (Prop * exn) :=
  let holds P := forall p, pw ppm = Some p -> P (fmul (fmul lam (Babs z)) p) : Prop in
  [(fle lam fzero = false, TypeError); ((0 < nx)%Z, TypeError); (fle ppm fzero = false, TypeError);
   (pw ppm <> None, Custom "OverflowError"); (holds (fun x => x <> B754_nan), ValueError);
   (holds (fun x => forall s, x <> B754_infinity s), Custom "OverflowError"); (holds (fun x => fval x <= IZR nx), ValueError)].

(** The values of an array of doubles, the distance of two fields, and what is asked of the fast Fourier transforms: that their
    result is finite and that its error is a fraction [eta] of the size of the exact result, in the sense of root sums of squares,
    up to underflow. *)
Definition cvals (a : arr c128) : arr C := Arr (nr a) (nc a) (fun i j => cval (at2 a i j)).
Definition finite_field (a : arr c128) : Prop := forall i j, in_arr a i j -> cfin (at2 a i j).
Definition field_size (a : arr C) : R := sqrt (energy a).
Definition field_dist (a b : arr C) : R := sqrt (energy (Arr (nr a) (nc a) (fun i j => at2 a i j - at2 b i j)%C)).
Definition transform_ok (eta : R) (exact : arr C -> res (arr C)) (f : arr c128 -> arr c128) : Prop :=
  forall a, (0 < nr a <= 2 ^ 20)%Z -> (0 < nc a <= 2 ^ 20)%Z -> finite_field a -> field_size (cvals a) <= bpow radix2 500 ->
  exists o, exact (cvals a) = Ok o /\ nr (f a) = nr a /\ nc (f a) = nc a /\ finite_field (f a) /\
    field_dist (cvals (f a)) o <= eta * field_size o + bpow radix2 (-900).
(** The propagated field: the spectrum of the field on the computation grid times the transfer function, cut to the input shape. *)
Definition propagated (e : arr C) (lam z : R) (nx : Z) (ppm : R) (out : arr C) : Prop :=
  exists u v, pad_crop e [nx; nx]%Z (RtoC 0) = Ok u /\ pad_crop v [nr e; nc e] (RtoC 0) = Ok out /\ nr v = nx /\ nc v = nx /\
    forall k l, (0 <= k < nx)%Z -> (0 <= l < nx)%Z -> spectrum v k l = (spectrum u k l * fresnel_transfer lam z ppm nx k l)%C.
Definition keeps_shape (f : arr c128 -> arr c128) : Prop := forall a, nr (f a) = nr a /\ nc (f a) = nc a.
(** The conditions of fresnelprop, in the order of its checks. A zero distance passes after the first three; a field with no pixels
    can pass the criterion only when the product underflows. *)
Definition fresnelprop_f_needs (pw : f64 -> option f64) (e : arr c128) (lam z : f64) (nx : Z) (ppm : f64) : list (Prop * exn) :=
  let holds P := feq z fzero = false -> forall p, pw ppm = Some p -> P (fmul (fmul lam (Babs z)) p) : Prop in
  [(fle lam fzero = false, TypeError); ((0 < nx)%Z, TypeError); (fle ppm fzero = false, TypeError);
   (feq z fzero = false -> pw ppm <> None, Custom "OverflowError"); (holds (fun x => x <> B754_nan), ValueError);
   (holds (fun x => forall s, x <> B754_infinity s), Custom "OverflowError");
   (holds (fun x => fval x <= IZR (Z.min (nr e) (nc e))), ValueError);
   (feq z fzero = false -> (0 < nr e)%Z /\ (0 < nc e)%Z, TypeError)].
(** The conditions of fresnelprop_fp, in the order of its checks: the factor must broadcast to the computation grid. *)
Definition fresnelprop_fp_f_needs (e : arr c128) (z : f64) (nx : Z) (fp : arr c128) : list (Prop * exn) :=
  [((0 < nx)%Z, TypeError);
   (feq z fzero = false -> (nr fp = nx \/ nr fp = 1%Z) /\ (nc fp = nx \/ nc fp = 1%Z), ValueError);
   (feq z fzero = false -> (0 < nr e)%Z /\ (0 < nc e)%Z, TypeError)].
