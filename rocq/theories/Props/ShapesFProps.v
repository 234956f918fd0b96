(** C94, C95: the circle in double precision. *)
From Coq Require Import ZArith Reals Bool Lia Lra.
From Flocq Require Import Core BinarySingleNaN.
From Verif.Base Require Import Py Arr Sums F64.
From Verif.Model Require Import ShapesF.
From Verif.Spec Require Import ShapesSpec ShapesFSpec.
From Verif.Proofs Require Import F64P ShapesFP ShapesFQ ShapesFA ShapesFEx.
Local Open Scope R_scope.

(** ** C94 circle bit for bit *)
(** Every pixel is a number between 0 and 1, for light and dark circles. *)
Theorem C94_range nx ny r xo yo ns isDark : circle_args nx ny r xo yo ns ->
  exists m, circle_f nx ny r xo yo ns isDark = Ok m /\ nr m = ny /\ nc m = nx /\
  forall i j, in_arr m i j -> is_finite (at2 m i j) = true /\ 0 <= fval (at2 m i j) <= 1.
Proof. exact (circle_f_total nx ny r xo yo ns isDark). Qed.
Print Assumptions C94_range.

(** With whole-pixel offsets, the doubles stored in two pixels are the same whenever the displacements of the pixels from
    the centres of their circles are the same up to reflections in the axes and the diagonals: the circle is symmetric, moves
    with its offset and does not depend on the array it is drawn in. *)
Theorem C94_symmetric nx ny nx' ny' r xo yo xo' yo' ns isDark m m' a b a' b' i j i' j' :
  circle_args nx ny r xo yo ns -> circle_args nx' ny' r xo' yo' ns ->
  whole_offsets xo yo a b -> whole_offsets xo' yo' a' b' ->
  circle_f nx ny r xo yo ns isDark = Ok m -> circle_f nx' ny' r xo' yo' ns isDark = Ok m' ->
  in_arr m i j -> in_arr m' i' j' ->
  mirrored (shift_from nx a j) (shift_from ny b i) (shift_from nx' a' j') (shift_from ny' b' i') ->
  at2 m i j = at2 m' i' j'.
Proof. exact (circle_f_mirror nx ny nx' ny' r xo yo xo' yo' ns isDark m m' a b a' b' i j i' j'). Qed.
Print Assumptions C94_symmetric.

(** A larger radius never dims a pixel of a light circle nor brightens one of a dark circle, whatever the offsets. *)
Theorem C94_radius_monotone nx ny r r' xo yo ns isDark m m' i j :
  circle_args nx ny r xo yo ns -> circle_args nx ny r' xo yo ns -> fval r <= fval r' ->
  circle_f nx ny r xo yo ns isDark = Ok m -> circle_f nx ny r' xo yo ns isDark = Ok m' -> in_arr m i j ->
  if isDark then fval (at2 m' i j) <= fval (at2 m i j) else fval (at2 m i j) <= fval (at2 m' i j).
Proof. exact (circle_f_mono nx ny r r' xo yo ns isDark m m' i j). Qed.
Print Assumptions C94_radius_monotone.

Theorem C94_bad_arguments nx ny r xo yo ns isDark :
  ((nx <= 0)%Z \/ (ny <= 0)%Z \/ fle r fzero = true \/ (ns <= 0)%Z -> circle_f nx ny r xo yo ns isDark = Err TypeError) /\
  (nx = 1%Z -> (0 < ny)%Z -> fle r fzero = false -> (0 < ns)%Z -> circle_f nx ny r xo yo ns isDark = Err IndexError).
Proof. exact (circle_f_err nx ny r xo yo ns isDark). Qed.
Print Assumptions C94_bad_arguments.

(** A radius that is not a number is not refused: the mask is empty. *)
Theorem C94_nan_radius nx ny xo yo ns isDark : (1 < nx)%Z -> (0 < ny)%Z -> (1 <= ns <= 2 ^ 26)%Z ->
  exists m, circle_f nx ny fnan xo yo ns isDark = Ok m /\ nr m = ny /\ nc m = nx /\
  forall i j, in_arr m i j -> fval (at2 m i j) = if isDark then 1 else 0.
Proof. exact (circle_f_nan nx ny xo yo ns isDark). Qed.
Print Assumptions C94_nan_radius.

(** Two circles of radius 7.3 in 40 columns and 41 rows, one moved by (2, -5). *)
Example C94_ex : circle_args 40 41 tenth73 (fofZ 0) (fofZ 0) 11 /\ whole_offsets (fofZ 0) (fofZ 0) 0 0 /\
  circle_args 40 41 tenth73 (fofZ 2) (fofZ (-5)) 11 /\ whole_offsets (fofZ 2) (fofZ (-5)) 2 (-5) /\
  mirrored (shift_from 40 0 27) (shift_from 41 0 21) (shift_from 40 2 15) (shift_from 41 (-5) 16).
Proof.
  destruct (args_whole 0 0 ltac:(lia) ltac:(lia)) as [A1 A2]. destruct (args_whole 2 (-5) ltac:(lia) ltac:(lia)) as [A3 A4].
  split; [exact A1|]. split; [exact A2|]. split; [exact A3|]. split; [exact A4|]. left. split; reflexivity.
Qed.

(** ** C95 accuracy of circle *)
(** For sizes, radius and offsets up to 2^k pixels: the double in a pixel differs from the exact coverage of the pixel by the
    disc by at most the fraction of subpixel centres within 2^(k-47) pixels of the rim, plus 2^-52. If no subpixel centre is
    that close to the rim it is the exact coverage, correctly rounded. *)
Theorem C95_accuracy k nx ny r xo yo ns isDark : circle_args_upto k nx ny r xo yo ns ->
  exists m, circle_f nx ny r xo yo ns isDark = Ok m /\ nr m = ny /\ nc m = nx /\
  forall i j, (0 <= i < ny)%Z -> (0 <= j < nx)%Z -> exists v t,
    coverage (disc (fval r)) ns (px nx (fval xo) j) (px ny (fval yo) i) v /\
    coverage (rim (fval r) (bpow radix2 (k - 47))) ns (px nx (fval xo) j) (px ny (fval yo) i) t /\
    Rabs (fval (at2 m i j) - (if isDark then 1 - v else v)) <= t + bpow radix2 (-52) /\
    (t = 0 -> fval (at2 m i j) = if isDark then rnd64 (1 - rnd64 v) else rnd64 v).
Proof. exact (circle_f_accurate k nx ny r xo yo ns isDark). Qed.
Print Assumptions C95_accuracy.

Example C95_ex : circle_args_upto 6 40 41 tenth73 tenth73 (fofZ (-3)) 11.
Proof. exact args_ex. Qed.
