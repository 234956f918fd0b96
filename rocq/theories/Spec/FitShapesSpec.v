(** Filling the gaps of a pupil mask, and what shape fits must do. *)
From Coq Require Import ZArith Bool List Reals.
From Verif.Base Require Import Py Arr.
Open Scope Z_scope.

(** Pixel (i, j) of the mask is set. *)
Definition lit (b : arr bool) (i j : Z) : Prop := in_arr b i j /\ at2 b i j = true.
(** In the plane: every point of the square of half-width n about (i, j) has a point of S within n pixels. *)
Definition closed_by (S : Z -> Z -> Prop) (n i j : Z) : Prop :=
  forall i' j', Z.abs (i' - i) <= n -> Z.abs (j' - j) <= n ->
  exists i'' j'', S i'' j'' /\ Z.abs (i'' - i') <= n /\ Z.abs (j'' - j') <= n.
(** The same in an array, beyond which nothing is set: pixels within n of the edge are cleared. *)
Definition closing (n : Z) (m blob : arr bool) : Prop :=
  nr blob = nr m /\ nc blob = nc m /\
  forall i j, lit blob i j <-> (n <= i < nr m - n /\ n <= j < nc m - n) /\ closed_by (lit m) n i j.
(** An N by N copy of the image with the same centre pixel, zero outside the image. *)
Definition recentred (N : Z) (image p : arr R) : Prop :=
  nr p = N /\ nc p = N /\
  forall i j, in_arr p i j ->
    (in_arr image (i - N / 2 + nr image / 2) (j - N / 2 + nc image / 2) ->
       at2 p i j = at2 image (i - N / 2 + nr image / 2) (j - N / 2 + nc image / 2)) /\
    (~ in_arr image (i - N / 2 + nr image / 2) (j - N / 2 + nc image / 2) -> at2 p i j = 0%R).
(** Smallest integer at least x. *)
Definition round_up (x : R) (n : Z) : Prop := (IZR n - 1 < x <= IZR n)%R.

(** An image of zeros and ones, with both. *)
Definition zero_one_image (image : arr R) : Prop :=
  (forall i j, in_arr image i j -> at2 image i j = 0%R \/ at2 image i j = 1%R) /\
  (exists i j, in_arr image i j /\ at2 image i j = 0%R) /\ (exists i j, in_arr image i j /\ at2 image i j = 1%R).
Definition bright (image : arr R) (i j : Z) : Prop := in_arr image i j /\ at2 image i j = 1%R.
(** A contour finder and an ellipse fit that follow a translation by dy rows and dx columns. *)
Definition moved (dy dx : Z) (b b' : arr bool) : Prop :=
  nr b' = nr b /\ nc b' = nc b /\ forall i j, lit b' i j <-> lit b (i - dy) (j - dx).
Definition move_points (dy dx : Z) (c : list (Z * Z)) : list (Z * Z) := map (fun p => (fst p + dx, snd p + dy)) c.
Definition move_ellipse (dy dx : Z) (e : res (R * R * R * R)) : res (R * R * R * R) :=
  match e with Ok (x, y, u, v) => Ok (x + IZR dx, y + IZR dy, u, v)%R | Err x => Err x end.
Definition follow_translations (contours : arr bool -> list (list (Z * Z))) (cv_ellipse : list (Z * Z) -> res (R * R * R * R)) : Prop :=
  (forall dy dx b b', moved dy dx b b' -> contours b' = map (move_points dy dx) (contours b)) /\
  (forall dy dx c, cv_ellipse (move_points dy dx c) = move_ellipse dy dx (cv_ellipse c)).
(** N leaves n pixels or more on every side of an image. *)
Definition pads (n N : Z) (image : arr R) : Prop :=
  (n <= N / 2 - nr image / 2 /\ n <= N / 2 - nc image / 2) /\
  (n <= (N - N / 2) - (nr image - nr image / 2) /\ n <= (N - N / 2) - (nc image - nc image / 2)).
