(** Model of coralign/util/fit_shapes.py. Images hold finite reals; the edge detector, the Hough transform, the
    contour finder and the ellipse fit are arguments. *)
From Coq Require Import ZArith Bool List Reals.
From Flocq Require Import Core.
From Verif.Base Require Import Py Arr.
From Verif.Model Require Import Fits PadCrop.
Import ListNotations.
Open Scope Z_scope.

(** ** Circle *)

(** skimage.feature.canny (thresholds 0.2 and 0.8) of a boolean image, by the filter width. *)
Definition canny_fun := R -> arr bool -> arr bool.
(** skimage.transform.hough_circle, then hough_circle_peaks with total_num_peaks = 1: from the edges and the list
    of radii to the peaks (cx, cy, radius), at most one. *)
Definition hough_fun := arr bool -> list Z -> list (Z * Z * Z).
(** fit_shapes.py:15-82. *)
Definition fit_circle (canny : canny_fun) (hough : hough_fun) (image : arr R) (min_radius max_radius : Z) (edge_sigma : R)
  : res (Z * Z * Z) :=
  check 0 <? min_radius else TypeError;                                     (* 52 *)
  check 0 <? max_radius else TypeError;                                     (* 53 *)
  check Rltb 0 edge_sigma else TypeError;                                   (* 54 *)
  check min_radius <? max_radius else ValueError;                           (* 55-56 *)
  do b <- ampthresh image 21;                                               (* 62 *)
  let edges := canny edge_sigma b in                                        (* 63-64 *)
  let hough_radii := map (fun k => min_radius + k) (zrange (max_radius + 1 - min_radius)) in   (* 68 *)
  match hough edges hough_radii with                                        (* 69-73 *)
  | [] => Err IndexError                                                    (* 75 *)
  | (cx, cy, r) :: _ => Ok (cx - nc b / 2, cy - nr b / 2, r)                (* 75-82 *)
  end.

(** ** Ellipse *)

(** One pass of scipy.ndimage.binary_dilation or binary_erosion with the 3 by 3 structure of ones (line 130)
    and border value 0. *)
Definition block : list (Z * Z) := list_prod [-1; 0; 1] [-1; 0; 1].
Definition neighbour (a : arr bool) (i j : Z) (d : Z * Z) : bool :=
  in_arrb a (i + fst d) (j + snd d) && at2 a (i + fst d) (j + snd d).
Definition dilate1 (a : arr bool) : arr bool := Arr (nr a) (nc a) (fun i j => existsb (neighbour a i j) block).
Definition erode1 (a : arr bool) : arr bool := Arr (nr a) (nc a) (fun i j => forallb (neighbour a i j) block).
(** [iterations] passes; for fewer than one the pass is repeated until nothing changes. Each pass but the last then
    changes a pixel, always in the same direction, so as many passes as there are pixels are enough. *)
Definition passes (f : arr bool -> arr bool) (iterations : Z) (a : arr bool) : arr bool :=
  Nat.iter (Z.to_nat (if iterations <? 1 then nr a * nc a else iterations)) f a.
(** cv2.findContours: the contours of a mask, each a list of points (x, y). cv2.fitEllipse: centre (x, y) and the two
    axes, or an exception. *)
Definition contours_fun := arr bool -> list (list (Z * Z)).
Definition cv_ellipse_fun := list (Z * Z) -> res (R * R * R * R).
(** fit_shapes.py:126-134. *)
Definition dilate_erode (n : Z) (m : arr bool) : arr bool :=
  if n =? 0 then m else passes erode1 n (passes dilate1 n m).
(** fit_shapes.py:85-158. nIterDilateErode and padFactor are what lines 118-120 read. *)
Definition fit_ellipse (contours : contours_fun) (cv_ellipse : cv_ellipse_fun) (pupil_image : arr R) (nIterDilateErode : Z) (padFactor : R)
  : res (R * R * R) :=
  let nMax := Zceil (padFactor * IZR (Z.max (nr pupil_image) (nc pupil_image))) in   (* 122 *)
  do p <- pad_crop pupil_image [nMax; nMax] 0%R;                            (* 123 *)
  do m <- ampthresh p 21;                                                   (* 124 *)
  let pupilOut := dilate_erode nIterDilateErode m in                        (* 126-134 *)
  match contours pupilOut with                                              (* 139-141 *)
  | [] => Err IndexError                                                    (* 142 *)
  | cnt :: _ =>
      do e <- cv_ellipse cnt;                                               (* 143 *)
      let '(xc, yc, u, v) := e in
      Ok (2 * Rmax (u / 2) (v / 2), xc - IZR (nc pupilOut / 2), yc - IZR (nr pupilOut / 2))%R   (* 145-158 *)
  end.
