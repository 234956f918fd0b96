(** C31-C35, C60: antialiased shapes. *)
From Coq Require Import ZArith Bool List Reals Lra Lia Permutation.
From Verif.Base Require Import Py Arr Sums.
From Verif.Model Require Import Shapes.
From Verif.Spec Require Import ShapesSpec.
From Verif.Proofs Require Import FitsP ShapesP ShapesE.
Import ListNotations.
Open Scope Z_scope.

(** ** C31 circle *)
Theorem C31_circle_coverage : forall nx ny r xo yo ns isDark, valid_circle nx ny r ns ->
  exists m, circle nx ny r xo yo ns isDark = Ok m /\ nr m = ny /\ nc m = nx /\
  forall i j, 0 <= i < ny -> 0 <= j < nx ->
    exists v, coverage (disc r) ns (px nx xo j) (px ny yo i) v /\ at2 m i j = if isDark then (1 - v)%R else v.
Proof. exact circle_ok. Qed.
Print Assumptions C31_circle_coverage.
Theorem C31_coverage_determined : forall (S : R -> R -> Prop) ns x y v w, 0 < ns -> coverage S ns x y v -> coverage S ns x y w ->
  v = w /\ (0 <= v <= 1)%R.
Proof. intros S ns x y v w Hn A B. split; [exact (coverage_unique S ns x y v w A B)|exact (coverage_range S ns x y v Hn A)]. Qed.
Print Assumptions C31_coverage_determined.
Theorem C31_dark_complement : forall nx ny r xo yo ns m m', circle nx ny r xo yo ns false = Ok m ->
  circle nx ny r xo yo ns true = Ok m' -> aeq m' (amap (fun v => 1 - v)%R m).
Proof. exact circle_complement. Qed.
Print Assumptions C31_dark_complement.
Theorem C31_radius_monotone : forall nx ny r r' xo yo ns m m', (r <= r')%R -> circle nx ny r xo yo ns false = Ok m ->
  circle nx ny r' xo yo ns false = Ok m' -> forall i j, in_arr m i j -> (at2 m i j <= at2 m' i j)%R.
Proof. exact circle_mono. Qed.
Print Assumptions C31_radius_monotone.
Theorem C31_bad_arguments : forall nx ny r xo yo ns isDark,
  (nx <= 0 \/ ny <= 0 \/ (r <= 0)%R \/ ns <= 0 -> circle nx ny r xo yo ns isDark = Err TypeError) /\
  (nx = 1 -> 0 < ny -> (0 < r)%R -> 0 < ns -> circle nx ny r xo yo ns isDark = Err IndexError).
Proof. exact circle_err. Qed.
Print Assumptions C31_bad_arguments.
Example C31_ex : valid_circle 40 41 (73/10) 11.
Proof. repeat split; lia || lra. Qed.

(** ** C32 ellipse *)
Theorem C32_ellipse_coverage_partial : forall nx ny rx ry rot xo yo ns isDark, valid_ellipse nx ny rx ry ns ->
  ((1 - / IZR ns) / 2 * Rmax (ellipse_level rx ry (deg rot) 1 1) (ellipse_level rx ry (deg rot) 1 (-1))
     <= corner_window nx ny rx ry (deg rot) xo yo)%R ->
  exists m, ellipse nx ny rx ry rot xo yo ns isDark = Ok m /\ nr m = ny /\ nc m = nx /\
  forall i j, 0 <= i < ny -> 0 <= j < nx ->
    exists v, coverage (ellipse_set rx ry (deg rot)) ns (px nx xo j) (px ny yo i) v /\ at2 m i j = if isDark then (1 - v)%R else v.
Proof. exact ellipse_ok. Qed.
Print Assumptions C32_ellipse_coverage_partial.
Theorem C32_ellipse_range : forall nx ny rx ry rot xo yo ns isDark m, ellipse nx ny rx ry rot xo yo ns isDark = Ok m ->
  nr m = ny /\ nc m = nx /\ forall i j, in_arr m i j -> (0 <= at2 m i j <= 1)%R.
Proof. exact ellipse_range. Qed.
Print Assumptions C32_ellipse_range.
Theorem C32_single_subpixel : forall nx ny rx ry rot xo yo isDark, valid_ellipse nx ny rx ry 1 ->
  exists m, ellipse nx ny rx ry rot xo yo 1 isDark = Ok m /\ nr m = ny /\ nc m = nx /\
  forall i j, 0 <= i < ny -> 0 <= j < nx ->
    exists v, coverage (ellipse_set rx ry (deg rot)) 1 (px nx xo j) (px ny yo i) v /\ at2 m i j = if isDark then (1 - v)%R else v.
Proof. exact ellipse_ok_one. Qed.
Print Assumptions C32_single_subpixel.
Theorem C32_ellipse_coverage_refuted :
  valid_ellipse 4 4 (17/10) (17/10) 2 /\
  exists m, ellipse 4 4 (17/10) (17/10) 0 (-3/2) (-3/2) 2 false = Ok m /\ at2 m 1 2 = 1%R /\
  forall v, coverage (ellipse_set (17/10) (17/10) (deg 0)) 2 (px 4 (-3/2) 2) (px 4 (-3/2) 1) v -> (v < 1)%R.
Proof. exact ellipse_refuted. Qed.
Print Assumptions C32_ellipse_coverage_refuted.
Theorem C32_bad_arguments : forall nx ny rx ry rot xo yo ns isDark,
  (nx <= 0 \/ ny <= 0 \/ (rx <= 0)%R \/ (ry <= 0)%R \/ ns <= 0 -> ellipse nx ny rx ry rot xo yo ns isDark = Err TypeError) /\
  (nx = 1 \/ ny = 1 -> 0 < nx -> 0 < ny -> (0 < rx)%R -> (0 < ry)%R -> 0 < ns ->
     ellipse nx ny rx ry rot xo yo ns isDark = Err IndexError).
Proof. exact ellipse_err. Qed.
Print Assumptions C32_bad_arguments.
Example C32_ex : valid_ellipse 4 4 1 1 11 /\
  ((1 - / IZR 11) / 2 * Rmax (ellipse_level 1 1 (deg 0) 1 1) (ellipse_level 1 1 (deg 0) 1 (-1))
     <= corner_window 4 4 1 1 (deg 0) 0 (-2))%R.
Proof. split; [repeat split; lia || lra|exact ellipse_example]. Qed.

(** ** C33 rectangle *)
Theorem C33_rectangle_coverage : forall nx ny w h xo yo rot ns isDark, valid_rect nx ny w h ns ->
  exists m, rectangle nx ny w h xo yo rot ns isDark = Ok m /\ nr m = ny /\ nc m = nx /\
  forall i j, 0 <= i < ny -> 0 <= j < nx ->
    exists v, coverage (rect_set w h (deg rot)) ns (px nx xo j) (px ny yo i) v /\ at2 m i j = if isDark then (1 - v)%R else v.
Proof. exact rectangle_ok. Qed.
Print Assumptions C33_rectangle_coverage.
Theorem C33_rectangle_errors : forall nx ny w h xo yo rot ns isDark e, rectangle nx ny w h xo yo rot ns isDark = Err e ->
  (e = TypeError /\ (nx <= 0 \/ ny <= 0 \/ (w <= 0)%R \/ (h <= 0)%R \/ ns <= 0)) \/ (e = IndexError /\ nx = 1).
Proof. exact rectangle_err. Qed.
Print Assumptions C33_rectangle_errors.
Theorem C33_bad_arguments : forall nx ny w h xo yo rot ns isDark,
  (nx <= 0 \/ ny <= 0 \/ (w <= 0)%R \/ (h <= 0)%R \/ ns <= 0 -> rectangle nx ny w h xo yo rot ns isDark = Err TypeError) /\
  (nx = 1 -> 0 < ny -> (0 < w)%R -> (0 < h)%R -> 0 < ns -> rectangle nx ny w h xo yo rot ns isDark = Err IndexError).
Proof. exact rectangle_bad. Qed.
Print Assumptions C33_bad_arguments.
Example C33_ex : valid_rect 40 41 (73/10) (5/2) 11.
Proof. repeat split; lia || lra. Qed.

(** ** C34 annular_segments: transmission map *)
Theorem C34_transmission_partial : forall nSeg rIn rOut nx ny xo yo angOpen angRot ns dTheta,
  valid_segments nSeg rIn rOut nx ny angOpen angRot ns dTheta ->
  exists m, annular_segments nSeg rIn rOut nx ny xo yo angOpen angRot ns dTheta = Ok m /\ nr m = ny /\ nc m = nx /\
   forall i j, in_arr m i j -> (0 <= at2 m i j <= 1)%R.
Proof. exact segments_range. Qed.
Print Assumptions C34_transmission_partial.
Theorem C34_rotation_360_refuted : forall nSeg rIn rOut nx ny xo yo angOpen angRot ns dTheta,
  (nSeg = 1 \/ nSeg = 2) -> (0 < rIn)%R -> (0 < rOut)%R -> 0 < ny -> (0 <= angOpen)%R -> 0 < ns -> (0 <= dTheta)%R ->
  (nx = 1 -> annular_segments nSeg rIn rOut nx ny xo yo angOpen angRot ns dTheta = Err IndexError) /\
  (1 < nx -> (360 <= angRot)%R -> annular_segments nSeg rIn rOut nx ny xo yo angOpen angRot ns dTheta = Err UnboundLocalError).
Proof. exact segments_err. Qed.
Print Assumptions C34_rotation_360_refuted.
Theorem C34_bad_arguments : forall nSeg rIn rOut nx ny xo yo angOpen angRot ns dTheta,
  (nSeg <> 1 /\ nSeg <> 2) \/ (rIn <= 0)%R \/ (rOut <= 0)%R \/ nx <= 0 \/ ny <= 0 \/ (angOpen < 0)%R \/ ns <= 0 \/ (dTheta < 0)%R ->
  annular_segments nSeg rIn rOut nx ny xo yo angOpen angRot ns dTheta = Err TypeError.
Proof. exact segments_bad_args. Qed.
Print Assumptions C34_bad_arguments.
Example C34_ex : valid_segments 2 (13/5) 9 40 41 (65) (359) 11 5.
Proof. repeat split; auto; lia || lra. Qed.

(** ** C60 annular_segments: geometry away from the centre *)
Theorem C60_segments_coverage_partial : forall nSeg rIn rOut nx ny xo yo angOpen angRot ns dTheta m,
  valid_segments nSeg rIn rOut nx ny angOpen angRot ns dTheta -> (0 < dTheta <= 90)%R ->
  annular_segments nSeg rIn rOut nx ny xo yo angOpen angRot ns dTheta = Ok m ->
  forall i j, 0 <= i < ny -> 0 <= j < nx ->
   angularly_resolved rIn rOut (deg dTheta) (px nx xo j) (px ny yo i) ->
   coverage (segments_set nSeg rIn rOut (deg angOpen) (deg angRot)) ns (px nx xo j) (px ny yo i) (at2 m i j).
Proof. exact segments_coverage. Qed.
Print Assumptions C60_segments_coverage_partial.
Theorem C60_near_centre_refuted : exists m, annular_segments 1 (1/10) 10 5 5 0 0 12 0 11 5 = Ok m /\ at2 m 2 4 = 1%R /\
  forall v, coverage (segments_set 1 (1/10) 10 (deg 12) (deg 0)) 11 (px 5 0 4) (px 5 0 2) v -> (v < 1)%R.
Proof. exact segments_bad. Qed.
Print Assumptions C60_near_centre_refuted.
Example C60_ex : valid_segments 1 2 9 40 40 60 10 11 90 /\ angularly_resolved 2 9 (deg 90) (px 40 0 23) (px 40 0 20).
Proof.
  split; [repeat split; auto; lia || lra|]. left.
  replace (deg 90) with (PI / 2)%R by (unfold deg; field). rewrite sin_PI2. unfold px. cbn. lra.
Qed.

(** ** C35 simple_pupil *)
Theorem C35_pupil_value : forall nx ny xo yo dI dO angs width ns, valid_pupil nx ny dI dO width ns ->
  exists m, simple_pupil nx ny xo yo dI dO angs width ns = Ok m /\ nr m = ny /\ nc m = nx /\
  forall i j, 0 <= i < ny -> 0 <= j < nx -> exists vo vi ws,
    coverage (disc (dO / 2)) ns (px nx xo j) (px ny yo i) vo /\
    ((0 < dI)%R -> coverage (disc (dI / 2)) ns (px nx xo j) (px ny yo i) vi) /\ (dI = 0%R -> vi = 0%R) /\
    ((0 < width)%R -> Forall2 (strut_cover nx ny xo yo dO width ns i j) angs ws) /\ (width = 0%R -> ws = []) /\
    at2 m i j = (vo * (1 - vi) * dim_all ws)%R.
Proof. exact simple_pupil_ok. Qed.
Print Assumptions C35_pupil_value.
Theorem C35_pupil_range : forall nx ny xo yo dI dO angs width ns m, simple_pupil nx ny xo yo dI dO angs width ns = Ok m ->
  nr m = ny /\ nc m = nx /\ forall i j, in_arr m i j -> (0 <= at2 m i j <= 1)%R.
Proof. exact simple_pupil_range. Qed.
Print Assumptions C35_pupil_range.
Theorem C35_strut_order : forall nx ny xo yo dI dO angs angs' width ns m, Permutation angs angs' ->
  simple_pupil nx ny xo yo dI dO angs width ns = Ok m ->
  exists m', simple_pupil nx ny xo yo dI dO angs' width ns = Ok m' /\ aeq m' m.
Proof. exact simple_pupil_perm. Qed.
Print Assumptions C35_strut_order.
Theorem C35_more_struts : forall nx ny xo yo dI dO angs t width ns m m',
  simple_pupil nx ny xo yo dI dO angs width ns = Ok m ->
  simple_pupil nx ny xo yo dI dO (t :: angs) width ns = Ok m' ->
  forall i j, in_arr m i j -> (at2 m' i j <= at2 m i j)%R.
Proof. exact simple_pupil_more. Qed.
Print Assumptions C35_more_struts.
Theorem C35_bad_arguments : forall nx ny xo yo dI dO angs width ns,
  nx <= 0 \/ ny <= 0 \/ (dI < 0)%R \/ (dO <= dI)%R \/ (width < 0)%R \/ ns <= 0 ->
  simple_pupil nx ny xo yo dI dO angs width ns = Err TypeError.
Proof. exact simple_pupil_err. Qed.
Print Assumptions C35_bad_arguments.
Theorem C35_one_column : forall ny xo yo dI dO angs width ns,
  0 < ny -> (0 <= dI < dO)%R -> (0 <= width)%R -> 0 < ns ->
  simple_pupil 1 ny xo yo dI dO angs width ns = Err IndexError.
Proof. exact simple_pupil_column. Qed.
Print Assumptions C35_one_column.
Example C35_ex : valid_pupil 64 64 (10) (50) (3/2) 11.
Proof. repeat split; lia || lra. Qed.
