(** C101: how close the rectangles and pupils computed in double precision are to the exact ones. *)
From Coq Require Import ZArith Reals Bool List Lia Lra.
From Flocq Require Import Core BinarySingleNaN.
From Verif.Base Require Import Py Arr F64.
From Verif.Model Require Import ShapesF ShapesG.
From Verif.Spec Require Import ShapesSpec ShapesFSpec ShapesGSpec ShapesASpec.
From Verif.Proofs Require Import F64P ShapesFEx ShapesGA LibmRef ShapesGB.
Import ListNotations.
Open Scope R_scope.

(** With an accurate C library, for sizes and offsets up to 2^k pixels and rotations up to 1024 degrees: the double in a pixel
    differs from the exact coverage of the pixel by the turned rectangle by at most the fraction of subpixel centres within
    2^(k-43) pixels of the border, plus 2^-52. If none is that close to the border it is the exact coverage, correctly rounded. *)
Theorem C101_rectangle M k nx ny width height xo yo rot ns isDark :
  accurate_libm M -> rect_args_upto k nx ny width height xo yo rot ns ->
  exists m, rectangle_f M nx ny width height xo yo rot ns isDark = Ok m /\ nr m = ny /\ nc m = nx /\
  forall i j, (0 <= i < ny)%Z -> (0 <= j < nx)%Z -> exists v r,
    coverage (rect_set (fval width) (fval height) (deg (fval rot))) ns (px nx (fval xo) j) (px ny (fval yo) i) v /\
    coverage (rect_rim (fval width) (fval height) (deg (fval rot)) (bpow radix2 (k - 43))) ns
      (px nx (fval xo) j) (px ny (fval yo) i) r /\
    Rabs (fval (at2 m i j) - (if isDark then 1 - v else v)) <= r + bpow radix2 (-52) /\
    (r = 0 -> fval (at2 m i j) = if isDark then rnd64 (1 - rnd64 v) else rnd64 v).
Proof. exact (rectangle_f_accurate M k nx ny width height xo yo rot ns isDark). Qed.
Print Assumptions C101_rectangle.

(** The pupil: the product of the coverages of the outer disc, outside the inner disc and outside every strut, up to the
    fractions of subpixel centres close to a border, plus 2^-51 for every shape. *)
Theorem C101_pupil M k nx ny xo yo dIn dOut angs width ns :
  accurate_libm M -> pupil_args_upto k nx ny xo yo dIn dOut angs width ns ->
  exists m, simple_pupil_f M nx ny xo yo dIn dOut angs width ns = Ok m /\ nr m = ny /\ nc m = nx /\
  forall i j, (0 <= i < ny)%Z -> (0 <= j < nx)%Z -> exists vo vi ws ro ri rs,
    coverage (disc (fval dOut / 2)) ns (px nx (fval xo) j) (px ny (fval yo) i) vo /\
    coverage (rim (fval dOut / 2) (bpow radix2 (k - 47))) ns (px nx (fval xo) j) (px ny (fval yo) i) ro /\
    (0 < fval dIn -> coverage (disc (fval dIn / 2)) ns (px nx (fval xo) j) (px ny (fval yo) i) vi /\
                     coverage (rim (fval dIn / 2) (bpow radix2 (k - 47))) ns (px nx (fval xo) j) (px ny (fval yo) i) ri) /\
    (fval dIn = 0 -> vi = 0 /\ ri = 0) /\
    (0 < fval width ->
       Forall2 (strut_cover nx ny (fval xo) (fval yo) (fval dOut) (fval width) ns i j) (map fval angs) ws /\
       Forall2 (strut_rim nx ny (fval xo) (fval yo) (fval dOut) (fval width) ns i j (bpow radix2 (k - 42))) (map fval angs) rs) /\
    (fval width = 0 -> ws = [] /\ rs = []) /\
    Rabs (fval (at2 m i j) - vo * (1 - vi) * dim_all ws) <= ro + ri + total rs + INR (2 + length angs) * bpow radix2 (-51).
Proof. exact (pupil_f_accurate M k nx ny xo yo dIn dOut angs width ns). Qed.
Print Assumptions C101_pupil.

(** A correctly rounding C library is accurate; a rectangle 7.3 by 4 turned by 30 degrees at (7.3, -3), and a pupil with
    obscuration and two struts, are within the limits. *)
Example C101_ex : accurate_libm libm_ref /\ rect_args_upto 6 40 41 tenth73 (fofZ 4) tenth73 (fofZ (-3)) (fofZ 30) 11 /\
  pupil_args_upto 6 40 41 tenth73 (fofZ (-3)) (fofZ 4) (fofZ 33) [fofZ 30; fofZ 120] tenth73 11.
Proof.
  destruct tenth73_ok as [W P].
  assert (I : forall k z, (0 <= k <= 53)%Z -> (Z.abs z <= 2 ^ k)%Z -> double_within k (fofZ z)) by exact fofZ_within.
  assert (V : forall z, (Z.abs z <= 2 ^ 53)%Z -> fval (fofZ z) = IZR z) by (intros z Hz; apply fofZ_spec; exact Hz).
  assert (T : bpow radix2 (-1000) <= bpow radix2 0) by (apply bpow_le; lia). change (bpow radix2 0) with 1 in T.
  split; [exact ref_accurate|]. split.
  - repeat split; try lia; try apply W; try (apply I; lia); auto. rewrite V by lia. lra.
  - repeat split; try lia; try apply W; try (apply I; lia); rewrite ?V by lia; try lra; auto.
    apply Forall_cons; [apply I; lia|]. apply Forall_cons; [apply I; lia|]. apply Forall_nil.
Qed.
