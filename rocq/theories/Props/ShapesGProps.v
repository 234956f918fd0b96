(** C100: ellipse(), rectangle(), annular_segments() and simple_pupil() in double precision. *)
From Coq Require Import ZArith Reals Bool List Lia Lra.
From Flocq Require Import Core BinarySingleNaN.
From Verif.Base Require Import Py Arr F64.
From Verif.Model Require Import ShapesF ShapesG.
From Verif.Spec Require Import ShapesFSpec ShapesGSpec RefuseSpec.
From Verif.Proofs Require Import ShapesGP ShapesGQ ShapesGR LibmRef ShapesGEx.
Import ListNotations.
Open Scope R_scope.

(** Whatever the C library returns for sines and angles, NaN included, and whatever the arguments, a mask that is returned has
    the shape asked for and only finite pixels between 0 and 1. *)
Theorem C100_range M nx ny ns m : (ns <= 2 ^ 26)%Z ->
  (exists rx ry rot xo yo d, ellipse_f M nx ny rx ry rot xo yo ns d = Ok m) \/
  (exists w h xo yo rot d, rectangle_f M nx ny w h xo yo rot ns d = Ok m) \/
  (exists nSeg rIn rOut xo yo ao ar dT, annular_segments_f M nSeg rIn rOut nx ny xo yo ao ar ns dT = Ok m) \/
  (exists xo yo dIn dOut angs w, simple_pupil_f M nx ny xo yo dIn dOut angs w ns = Ok m) \/
  (exists r xo yo d, circle_f nx ny r xo yo ns d = Ok m) ->
  nr m = ny /\ nc m = nx /\ unit_pixels m.
Proof.
  intros Hn [(rx & ry & rot & xo & yo & d & H)|[(w & h & xo & yo & rot & d & H)|[(n & rIn & rOut & xo & yo & ao & ar & dT & H)|[(xo & yo & dI & dO & l & w & H)|(r & xo & yo & d & H)]]]].
  - destruct (ellipse_f_unit _ _ _ _ _ _ _ _ _ _ _ H) as (A & B & C). auto.
  - destruct (rectangle_f_unit _ _ _ _ _ _ _ _ _ _ _ H) as (A & B & C). auto.
  - destruct (segments_f_unit _ _ _ _ _ _ _ _ _ _ _ _ _ H) as (A & B & C). auto.
  - destruct (pupil_f_unit _ _ _ _ _ _ _ _ _ _ _ Hn H) as (A & B & C & _). auto.
  - destruct (circle_f_inv _ _ _ _ _ _ _ _ H) as (A & B & _ & _ & _ & _ & C). auto.
Qed.
Print Assumptions C100_range.

(** A pupil is nowhere brighter than its outer disc, nor than the dark disc of its obscuration. *)
Theorem C100_pupil_bounds M nx ny xo yo dIn dOut angs w ns m : (ns <= 2 ^ 26)%Z ->
  simple_pupil_f M nx ny xo yo dIn dOut angs w ns = Ok m ->
  exists c, circle_f nx ny (fdiv dOut (fofZ 2)) xo yo ns false = Ok c /\
  (forall i j, in_arr m i j -> fval (at2 m i j) <= fval (at2 c i j)) /\
  (forall d, flt fzero dIn = true -> circle_f nx ny (fdiv dIn (fofZ 2)) xo yo ns true = Ok d ->
     forall i j, in_arr m i j -> fval (at2 m i j) <= fval (at2 d i j)).
Proof. intros Hn H. exact (proj2 (proj2 (proj2 (pupil_f_unit M nx ny xo yo dIn dOut angs w ns m Hn H)))). Qed.
Print Assumptions C100_pupil_bounds.

(** One more strut brightens no pixel, in spite of the rounding of every product. *)
Theorem C100_more_struts M nx ny xo yo dIn dOut angs t w ns m m' : (ns <= 2 ^ 26)%Z ->
  simple_pupil_f M nx ny xo yo dIn dOut angs w ns = Ok m -> simple_pupil_f M nx ny xo yo dIn dOut (t :: angs) w ns = Ok m' ->
  forall i j, in_arr m i j -> fval (at2 m' i j) <= fval (at2 m i j).
Proof. exact (pupil_f_more M nx ny xo yo dIn dOut angs t w ns m m'). Qed.
Print Assumptions C100_more_struts.

(** With whole-pixel offsets, an ellipse at any angle is the same doubles after half a turn about its centre, whatever the
    C library computes for the sine and the cosine. *)
Theorem C100_ellipse_half_turn M nx ny rx ry rot xo yo ns isDark m a b i j i' j' :
  sizes nx ny ns -> whole xo a -> whole yo b -> ellipse_f M nx ny rx ry rot xo yo ns isDark = Ok m ->
  in_arr m i j -> in_arr m i' j' ->
  shift_from nx a j' = (- shift_from nx a j)%Z -> shift_from ny b i' = (- shift_from ny b i)%Z ->
  at2 m i' j' = at2 m i j.
Proof. exact (ellipse_half_turn M nx ny rx ry rot xo yo ns isDark m a b i j i' j'). Qed.
Print Assumptions C100_ellipse_half_turn.

(** An ellipse that is not rotated is symmetric in both axes. *)
Theorem C100_ellipse_mirror M nx ny rx ry rot xo yo ns isDark m a b i j i' j' :
  exact_at_zero M -> is_zero rot -> sizes nx ny ns -> whole xo a -> whole yo b ->
  ellipse_f M nx ny rx ry rot xo yo ns isDark = Ok m -> in_arr m i j -> in_arr m i' j' ->
  Z.abs (shift_from nx a j') = Z.abs (shift_from nx a j) -> Z.abs (shift_from ny b i') = Z.abs (shift_from ny b i) ->
  at2 m i' j' = at2 m i j.
Proof. exact (ellipse_mirror M nx ny rx ry rot xo yo ns isDark m a b i j i' j'). Qed.
Print Assumptions C100_ellipse_mirror.

(** Exchanging the axes, with the radii and the offsets, transposes the array. *)
Theorem C100_ellipse_transposed M nx ny rx ry rot rot' xo yo ns isDark m m' a b i j :
  exact_at_zero M -> is_zero rot -> is_zero rot' -> sizes nx ny ns -> whole xo a -> whole yo b ->
  ellipse_f M nx ny rx ry rot xo yo ns isDark = Ok m -> ellipse_f M ny nx ry rx rot' yo xo ns isDark = Ok m' ->
  in_arr m i j -> at2 m' j i = at2 m i j.
Proof. exact (ellipse_transpose M nx ny rx ry rot rot' xo yo ns isDark m m' a b i j). Qed.
Print Assumptions C100_ellipse_transposed.

(** Rectangles and annular segments move with a whole-pixel offset and do not depend on the array they are drawn in. *)
Theorem C100_rectangle_moves M nx ny nx' ny' w h xo yo xo' yo' rot ns isDark m m' a b a' b' i j i' j' :
  sizes nx ny ns -> sizes nx' ny' ns -> whole xo a -> whole yo b -> whole xo' a' -> whole yo' b' ->
  rectangle_f M nx ny w h xo yo rot ns isDark = Ok m -> rectangle_f M nx' ny' w h xo' yo' rot ns isDark = Ok m' ->
  in_arr m i j -> in_arr m' i' j' ->
  shift_from nx' a' j' = shift_from nx a j -> shift_from ny' b' i' = shift_from ny b i ->
  at2 m' i' j' = at2 m i j.
Proof. exact (rectangle_shift M nx ny nx' ny' w h xo yo xo' yo' rot ns isDark m m' a b a' b' i j i' j'). Qed.
Print Assumptions C100_rectangle_moves.
Theorem C100_segments_move M nSeg rIn rOut nx ny nx' ny' xo yo xo' yo' ao ar ns dT m m' a b a' b' i j i' j' :
  sizes nx ny ns -> sizes nx' ny' ns -> whole xo a -> whole yo b -> whole xo' a' -> whole yo' b' ->
  annular_segments_f M nSeg rIn rOut nx ny xo yo ao ar ns dT = Ok m ->
  annular_segments_f M nSeg rIn rOut nx' ny' xo' yo' ao ar ns dT = Ok m' ->
  in_arr m i j -> in_arr m' i' j' ->
  shift_from nx' a' j' = shift_from nx a j -> shift_from ny' b' i' = shift_from ny b i ->
  at2 m' i' j' = at2 m i j.
Proof. exact (segments_shift M nSeg rIn rOut nx ny nx' ny' xo yo xo' yo' ao ar ns dT m m' a b a' b' i j i' j'). Qed.
Print Assumptions C100_segments_move.

(** A rectangle rotated the other way is its mirror image, except perhaps along the row through its centre, where arctan2 is
    pi on both sides. *)
Theorem C100_rectangle_mirror M nx ny w h xo yo rot rot' ns isDark m m' a b i j i' :
  symmetric_libm M -> opposite rot rot' -> sizes nx ny ns -> whole xo a -> whole yo b ->
  rectangle_f M nx ny w h xo yo rot ns isDark = Ok m -> rectangle_f M nx ny w h xo yo rot' ns isDark = Ok m' ->
  in_arr m i j -> in_arr m' i' j ->
  shift_from ny b i' = (- shift_from ny b i)%Z -> shift_from ny b i <> 0%Z -> at2 m' i' j = at2 m i j.
Proof. exact (rectangle_mirror M nx ny w h xo yo rot rot' ns isDark m m' a b i j i'). Qed.
Print Assumptions C100_rectangle_mirror.

(** The exact list of what is refused and with which exception. NaN passes every test. *)
Theorem C100_refusals M nx ny ns e :
  (forall r xo yo d, circle_f nx ny r xo yo ns d = Err e <-> refused (circle_needs_f nx ny r ns) e) /\
  (forall rx ry rot xo yo d, ellipse_f M nx ny rx ry rot xo yo ns d = Err e <-> refused (ellipse_needs_f M nx ny rx ry ns) e) /\
  (forall w h xo yo rot d, rectangle_f M nx ny w h xo yo rot ns d = Err e <-> refused (rectangle_needs_f nx ny w h ns) e) /\
  (forall nSeg rIn rOut xo yo ao ar dT, annular_segments_f M nSeg rIn rOut nx ny xo yo ao ar ns dT = Err e <->
     refused (segments_needs_f nSeg rIn rOut nx ny ao ar ns dT) e) /\
  (forall xo yo dIn dOut angs w, simple_pupil_f M nx ny xo yo dIn dOut angs w ns = Err e <->
     refused (pupil_needs_f nx ny dIn dOut angs w ns) e).
Proof.
  split; [intros; apply circle_f_refused|]. split; [intros; apply ellipse_f_refused|]. split; [intros; apply rectangle_f_refused|].
  split; [intros; apply segments_f_refused|intros; apply pupil_f_refused].
Qed.
Print Assumptions C100_refusals.

(** A correctly rounding C library meets the hypotheses, and calls return: an ellipse of radii 5 and 3 and its transpose, a
    rectangle turned by 30 degrees and by -30, two arcs, a pupil with one strut and with two. *)
Example C100_ex : exact_at_zero libm_ref /\ symmetric_libm libm_ref /\ opposite (fofZ 30) (fofZ (-30)) /\
  sizes 20 21 11 /\ whole (fofZ 2) 2 /\ whole (fofZ (-1)) (-1) /\
  shift_from 20 2 14 = (- shift_from 20 2 10)%Z /\ shift_from 21 (-1) 12 = (- shift_from 21 (-1) 6)%Z /\
  shift_from 21 (-1) 6 <> 0%Z /\
  (exists m, ellipse_f libm_ref 20 21 (fofZ 5) (fofZ 3) fzero (fofZ 2) (fofZ (-1)) 11 false = Ok m) /\
  (exists m, ellipse_f libm_ref 21 20 (fofZ 3) (fofZ 5) fzero (fofZ (-1)) (fofZ 2) 11 false = Ok m) /\
  (exists m, rectangle_f libm_ref 20 21 (fofZ 9) (fofZ 4) (fofZ 2) (fofZ (-1)) (fofZ 30) 11 true = Ok m) /\
  (exists m, rectangle_f libm_ref 20 21 (fofZ 9) (fofZ 4) (fofZ 2) (fofZ (-1)) (fofZ (-30)) 11 true = Ok m) /\
  (exists m, annular_segments_f libm_ref 2 (fofZ 3) (fofZ 9) 20 21 (fofZ 2) (fofZ (-1)) (fofZ 65) (fofZ 90) 11 (fofZ 0) = Ok m) /\
  (exists m, simple_pupil_f libm_ref 20 21 (fofZ 2) (fofZ (-1)) (fofZ 4) (fofZ 16) [fofZ 120] (fofZ 1) 11 = Ok m) /\
  (exists m, simple_pupil_f libm_ref 20 21 (fofZ 2) (fofZ (-1)) (fofZ 4) (fofZ 16) [fofZ 30; fofZ 120] (fofZ 1) 11 = Ok m).
Proof.
  split; [exact ref_zero|]. split; [exact ref_symmetric|]. split; [exact (fofZ_neg 30 ltac:(lia))|]. split; [repeat split; lia|].
  split; [apply whole_int; lia|]. split; [apply whole_int; lia|]. split; [reflexivity|]. split; [reflexivity|]. split; [discriminate|].
  split; [apply ellipse_ex; lia|]. split; [apply ellipse_ex; lia|]. split; [apply rectangle_ex; lia|]. split; [apply rectangle_ex; lia|].
  split; [apply segments_ex; lia|]. apply pupil_ex; lia.
Qed.
