(** C75 and C76: fit_ellipse and fit_circle. *)
From Coq Require Import ZArith Bool List Reals Lra Lia.
From Verif.Base Require Import Py Arr.
From Verif.Model Require Import Fits FitShapes.
From Verif.Spec Require Import FitsSpec FitShapesSpec.
From Verif.Proofs Require Import FitsP FitShapesP FitShapesEx.
Import ListNotations.
Open Scope Z_scope.

(** What is fitted: the padded image, thresholded, with its gaps filled; and what is returned: the longer axis, and the
    centre relative to the centre pixel of the padded image, which is the centre pixel of the image. *)
Theorem C75_fit_of_the_filled_mask : forall contours cv_ellipse image n padFactor d x y, wf image -> 0 <= n ->
  fit_ellipse contours cv_ellipse image n padFactor = Ok (d, x, y) ->
  exists N p m blob cnt rest xc yc u v,
    round_up (padFactor * IZR (Z.max (nr image) (nc image))) N /\ 0 < N /\ recentred N image p /\ ampthresh p 21 = Ok m /\
    closing n m blob /\ contours blob = cnt :: rest /\ cv_ellipse cnt = Ok (xc, yc, u, v) /\
    d = Rmax u v /\ x = (xc - IZR (N / 2))%R /\ y = (yc - IZR (N / 2))%R.
Proof. exact fit_ellipse_ok. Qed.
Print Assumptions C75_fit_of_the_filled_mask.
(** With n pixels of padding the array's edge plays no role: exactly the gaps are filled and nothing is lost. *)
Theorem C75_padding_suffices : forall image N p m blob n, (forall i j, in_arr image i j -> (0 <= at2 image i j)%R) -> 0 <= n ->
  pads n N image -> recentred N image p -> ampthresh p 21 = Ok m -> closing n m blob ->
  (forall i j, lit blob i j <-> closed_by (lit m) n i j) /\ (forall i j, lit m i j -> lit blob i j).
Proof.
  intros image N p m blob n Pos Hn ((P1 & P2) & P3 & P4) R E C.
  exact (closing_ideal n m blob Hn C (padding_suffices image N p m n Pos Hn P1 P2 P3 P4 R E)).
Qed.
Print Assumptions C75_padding_suffices.
(** Without enough padding part of the pupil is lost. *)
Theorem C75_small_padding_loses_pupil : exists image m, ampthresh image 21 = Ok m /\ recentred 3 image image /\
  round_up (1 * IZR (Z.max (nr image) (nc image))) 3 /\ lit m 0 1 /\ forall blob, closing 1 m blob -> ~ lit blob 0 1.
Proof. exists corner3. exact corner3_lost. Qed.
Print Assumptions C75_small_padding_loses_pupil.
Theorem C75_brightness : forall contours cv_ellipse image n padFactor s, wf image -> (0 < s)%R ->
  (forall b b', aeq b b' -> contours b = contours b') -> forall r, fit_ellipse contours cv_ellipse image n padFactor = Ok r ->
  fit_ellipse contours cv_ellipse (amap (fun v => s * v)%R image) n padFactor = Ok r.
Proof. exact fit_ellipse_scale. Qed.
Print Assumptions C75_brightness.
Theorem C75_translation : forall contours cv_ellipse image image' n padFactor N dy dx, follow_translations contours cv_ellipse -> 0 <= n ->
  zero_one_image image -> zero_one_image image' -> nr image' = nr image -> nc image' = nc image ->
  (forall i j, bright image' i j <-> bright image (i - dy) (j - dx)) ->
  round_up (padFactor * IZR (Z.max (nr image) (nc image))) N -> pads n N image ->
  fit_ellipse contours cv_ellipse image' n padFactor =
    match fit_ellipse contours cv_ellipse image n padFactor with Ok (d, x, y) => Ok (d, x + IZR dx, y + IZR dy)%R | Err e => Err e end.
Proof. exact fit_ellipse_moves. Qed.
Print Assumptions C75_translation.
Theorem C75_rejections : forall contours cv_ellipse image n padFactor, wf image ->
  ((padFactor * IZR (Z.max (nr image) (nc image)) <= 0)%R -> fit_ellipse contours cv_ellipse image n padFactor = Err TypeError) /\
  (n < 0 -> (forall b, (forall i j, ~ lit b i j) -> contours b = []) -> forall r, fit_ellipse contours cv_ellipse image n padFactor <> Ok r).
Proof. exact fit_ellipse_err. Qed.
Print Assumptions C75_rejections.
(** A ring in a 5 by 5 image: its hole is filled, and its fit follows when it moves one column to the right. *)
Example C75_example_hole : forall m blob, nr m = 5 -> nc m = 5 -> (forall i j, lit m i j <-> bright ring5 i j) -> closing 1 m blob ->
  lit blob 2 2 /\ ~ lit m 2 2.
Proof. exact ring5_filled. Qed.
Example C75_example_oracles : follow_translations box_contours box_ellipse.
Proof. exact box_follows. Qed.
Example C75_example : exists d x y, fit_ellipse box_contours box_ellipse ring5 1 2 = Ok (d, x, y) /\
  fit_ellipse box_contours box_ellipse ring5_right 1 2 = Ok (d, x + 1, y + 0)%R.
Proof. exact ring5_fit. Qed.
Example C75_example_padding : pads 1 10 ring5 /\ zero_one_image ring5 /\ zero_one_image ring5_right /\
  (forall i j, bright ring5_right i j <-> bright ring5 (i - 0) (j - 1)).
Proof. split; [unfold pads; cbn; lia|]. exact (conj ring5_zero_one (conj ring5_right_zero_one ring5_moves)). Qed.

(** The best circle over every integer radius from min_radius to max_radius, both included, relative to the centre pixel. *)
Theorem C76_circle : forall canny hough image min_radius max_radius edge_sigma x y r,
  fit_circle canny hough image min_radius max_radius edge_sigma = Ok (x, y, r) <->
  0 < min_radius < max_radius /\ (0 < edge_sigma)%R /\ exists m radii cx cy rest, ampthresh image 21 = Ok m /\
    (Z.of_nat (length radii) = max_radius - min_radius + 1 /\
     forall k, 0 <= k <= max_radius - min_radius -> nth (Z.to_nat k) radii 0 = min_radius + k) /\
    hough (canny edge_sigma m) radii = (cx, cy, r) :: rest /\ x = cx - nc image / 2 /\ y = cy - nr image / 2.
Proof. exact fit_circle_ok. Qed.
Print Assumptions C76_circle.
Theorem C76_radius_in_range : forall canny hough image min_radius max_radius edge_sigma x y r,
  (forall e l cx cy q, In (cx, cy, q) (hough e l) -> In q l) ->
  fit_circle canny hough image min_radius max_radius edge_sigma = Ok (x, y, r) -> min_radius <= r <= max_radius.
Proof. exact fit_circle_radius. Qed.
Print Assumptions C76_radius_in_range.
Theorem C76_brightness : forall canny hough image min_radius max_radius edge_sigma s o r, (0 < s)%R ->
  (forall b b', aeq b b' -> canny edge_sigma b = canny edge_sigma b') ->
  fit_circle canny hough image min_radius max_radius edge_sigma = Ok r ->
  fit_circle canny hough (amap (fun v => s * v + o)%R image) min_radius max_radius edge_sigma = Ok r.
Proof. exact fit_circle_affine. Qed.
Print Assumptions C76_brightness.
Theorem C76_rejections : forall canny hough image min_radius max_radius edge_sigma,
  (min_radius <= 0 \/ max_radius <= 0 \/ (edge_sigma <= 0)%R -> fit_circle canny hough image min_radius max_radius edge_sigma = Err TypeError) /\
  (0 < max_radius <= min_radius -> (0 < edge_sigma)%R -> fit_circle canny hough image min_radius max_radius edge_sigma = Err ValueError) /\
  (forall m, 0 < min_radius < max_radius -> (0 < edge_sigma)%R -> ampthresh image 21 = Ok m -> (forall l, hough (canny edge_sigma m) l = []) ->
     fit_circle canny hough image min_radius max_radius edge_sigma = Err IndexError).
Proof. exact fit_circle_err. Qed.
Print Assumptions C76_rejections.
(** An edge detector that keeps the mask and a Hough transform that votes for the largest radius at (3, 2). *)
Example C76_example : fit_circle (fun _ b => b) (fun _ l => match rev l with [] => [] | q :: _ => [(3, 2, q)] end) ring5 1 4 1 = Ok (1, 0, 4).
Proof.
  destruct (two_level_thresh ring5 ring5_zero_one) as (m & E & _). apply fit_circle_ok. split; [lia|]. split; [lra|].
  exists m, [1; 2; 3; 4], 3, 2, []. split; [exact E|]. split; [|cbn; auto].
  split; [reflexivity|]. intros k Hk. assert (K : k = 0 \/ k = 1 \/ k = 2 \/ k = 3) by lia. destruct K as [K|[K|[K|K]]]; rewrite K; reflexivity.
Qed.
