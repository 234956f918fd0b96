(** What is assumed of the numerical routines the matrix Fourier transform calls, and the inputs it is accurate on. *)
From Coq Require Import ZArith List Reals.
From Coquelicot Require Import Complex.
From Flocq Require Import Core BinarySingleNaN.
From Verif.Base Require Import Py F64 Arr Sums CSum.
From Verif.Model Require Import MftF.
From Verif.Spec Require Import RefuseSpec RefuseLibSpec.
Import ListNotations.
Local Open Scope R_scope.

(** The number a complex double stands for, and whether it stands for one. *)
Definition cval (z : c128) : C := (fval (fst z), fval (snd z)).
Definition cfin (z : c128) : Prop := is_finite (fst z) = true /\ is_finite (snd z) = true.

(** exp(i t): within 2^-51. *)
Definition cexp_ok (f : c128 -> c128) : Prop :=
  forall z, cfin z -> fval (fst z) = 0 -> Rabs (fval (snd z)) <= bpow radix2 40 ->
  cfin (f z) /\ Cmod (cval (f z) - cis (fval (snd z)))%C <= bpow radix2 (-51).
(** Products of matrices: the error of the textbook analysis, whatever the order of the additions. *)
Definition dot_ok (dot : arr c128 -> arr c128 -> arr c128) : Prop :=
  forall a b, nc a = nr b -> nr (dot a b) = nr a /\ nc (dot a b) = nc b /\
  forall i j, (0 <= nc a <= 2 ^ 20)%Z -> (forall k, (0 <= k < nc a)%Z -> cfin (at2 a i k) /\ cfin (at2 b k j)) ->
  (0 <= i < nr a)%Z -> (0 <= j < nc b)%Z ->
  let size := rsum (fun k => Cmod (cval (at2 a i k)) * Cmod (cval (at2 b k j))) (nc a) in
  size <= bpow radix2 600 ->
  cfin (at2 (dot a b) i j) /\
  Cmod (cval (at2 (dot a b) i j) - csum (fun k => cval (at2 a i k) * cval (at2 b k j)) (nc a))%C <=
    IZR (nc a + 4) * bpow radix2 (-51) * size + bpow radix2 (-1000).

(** A sampling of at least 2^-100 and at most 2^100 pixels per unit. *)
Definition usable_sampling (p : f64) : Prop := is_finite p = true /\ bpow radix2 (-100) <= fval p <= bpow radix2 100.
(** A field of at most 2^20 x 2^20 pixels, all finite, of magnitudes adding up to at most 2^500. *)
Definition total (e : arr c128) : R := rsum2 (fun i j => Cmod (cval (at2 e i j))) (nr e) (nc e).
Definition usable_field (e : arr c128) : Prop :=
  (0 < nr e <= 2 ^ 20)%Z /\ (0 < nc e <= 2 ^ 20)%Z /\
  (forall i j, (0 <= i < nr e)%Z -> (0 <= j < nc e)%Z -> cfin (at2 e i j)) /\ total e <= bpow radix2 500.
(** Turns of phase between the centre and the edge of n pixels at [din] per unit, at k pixels from the centre at [dout] per unit. *)
Definition turns (k n : Z) (din dout : R) : R := IZR (Z.abs k) / dout * (IZR n / 2 / din).

(** A computed value is a number and its distance from the exact [x] is at most 2^-47 per turn of phase and 2^-50 per row and
    column, relative to the sum of the magnitudes over din^2. *)
Definition accurate (z : c128) (x : C) (tr tc : R) (e : arr c128) (din : R) : Prop :=
  cfin z /\ Cmod (cval z - x)%C <= (bpow radix2 (-47) * (tr + tc + 1) + bpow radix2 (-50) * IZR (nr e + nc e)) * (total e / din ^ 2) + bpow radix2 (-700).

(** The samplings that are not refused: positive numbers, and nan. *)
Definition a_scale (p : f64) : Prop := is_nan p = true \/ (is_finite p = true /\ 0 < fval p).
(** Requirements of do_mft and do_imft, and of do_offcenter_mft, in order. *)
Definition mft_f_needs (e : arr c128) (outshape : list Z) (pixperlod pixperpupil : f64) : list (Prop * exn) :=
  map (fun P : Prop => (P, TypeError))
    [a_scale pixperlod; a_scale pixperpupil; two_at_least 1 outshape; (0 < nr e)%Z; (0 < nc e)%Z].
Definition offcenter_f_needs (e : arr c128) (outshape : list Z) (pixperlod pixperpupil : f64) (pupilShape yxLowerLeft : list Z) : list (Prop * exn) :=
  map (fun P : Prop => (P, TypeError))
    [a_scale pixperlod; a_scale pixperpupil; two_at_least 1 outshape; two_at_least 1 pupilShape; two_at_least 0 yxLowerLeft] ++
  map (fun P : Prop => (P, ValueError))
    [ends_inside (nr e) (nth_error yxLowerLeft 0) (nth_error pupilShape 0);
     ends_inside (nc e) (nth_error yxLowerLeft 1) (nth_error pupilShape 1)].
