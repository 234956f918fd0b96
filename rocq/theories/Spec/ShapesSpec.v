(** Specifications for antialiased shapes: coverage of a pixel by a plane region. *)
From Coq Require Import ZArith Reals.
From Verif.Base Require Import Py Arr Sums.
Open Scope R_scope.

(** Centre of pixel (row i, column j) of an ny-by-nx array, relative to the point offset by (xo, yo)
    from pixel (ny//2, nx//2). *)
Definition px (n : Z) (off : R) (i : Z) : R := IZR (i - n / 2) - off.
(** Centre of subpixel q of ns along one axis, relative to the pixel centre (pixel width 1). *)
Definition sub (ns q : Z) : R := (2 * IZR q + 1 - IZR ns) / (2 * IZR ns).
(** [v] is the fraction of the ns*ns subpixel centres of the pixel centred at (x, y) that lie in [S]. *)
Definition coverage (S : R -> R -> Prop) (ns : Z) (x y v : R) : Prop :=
  exists f : Z -> Z -> R,
    (forall p q, (0 <= p < ns)%Z -> (0 <= q < ns)%Z ->
       (S (x + sub ns q) (y + sub ns p) -> f p q = 1) /\ (~ S (x + sub ns q) (y + sub ns p) -> f p q = 0)) /\
    v = rsum2 f ns ns / (IZR ns * IZR ns).

Definition deg (t : R) : R := t * PI / 180.
Definition disc (r x y : R) : Prop := x ^ 2 + y ^ 2 <= r ^ 2.
(** Ellipse with semi-axes rx, ry turned counter-clockwise by [t] radians. *)
Definition ellipse_set (rx ry t x y : R) : Prop :=
  ((x * cos t + y * sin t) / rx) ^ 2 + ((y * cos t - x * sin t) / ry) ^ 2 <= 1.
(** Rectangle w by h turned counter-clockwise by [t] radians. *)
Definition rect_set (w h t x y : R) : Prop :=
  Rabs (x * cos t + y * sin t) <= w / 2 /\ Rabs (y * cos t - x * sin t) <= h / 2.
(** (x, y) has a polar angle within [a] of the direction [t] (all angles in radians). The centre counts as
    having polar angle 0, as in numpy.arctan2. *)
Definition in_wedge (t a x y : R) : Prop :=
  exists rho s, 0 <= rho /\ x = rho * cos (t + s) /\ y = rho * sin (t + s) /\ - a <= s <= a /\
    (rho = 0 -> cos (t + s) = 1).
Definition annulus_set (rIn rOut x y : R) : Prop := rIn ^ 2 <= x ^ 2 + y ^ 2 <= rOut ^ 2.
(** Half the elliptical radius: 1/2 on the rim of the ellipse. *)
Definition ellipse_level (rx ry t x y : R) : R :=
  / 2 * sqrt (((x * cos t + y * sin t) / rx) ^ 2 + ((y * cos t - x * sin t) / ry) ^ 2).
(** Product of (1 - w). *)
Fixpoint dim_all (l : list R) : R := match l with nil => 1 | cons w l' => (1 - w) * dim_all l' end.
(** One annular sector of opening [open] centred on direction [rot] (radians), or that and the opposite one. *)
Definition segments_set (nSeg : Z) (rIn rOut open rot x y : R) : Prop :=
  annulus_set rIn rOut x y /\ (in_wedge rot (open / 2) x y \/ (nSeg = 2%Z /\ in_wedge (rot + PI) (open / 2) x y)).
(** [w] is the coverage of pixel (i, j) by the strut at angle [t] degrees: a rectangle of length 0.6 D and the
    given width that starts at the pupil centre (offset (xo, yo)) and points in direction t. *)
Definition strut_cover (nx ny : Z) (xo yo D width : R) (ns : Z) (i j : Z) (t w : R) : Prop :=
  coverage (rect_set (6 / 10 * D) width (deg t)) ns
    (px nx (xo + 3 / 10 * D * cos (deg t)) j) (px ny (yo + 3 / 10 * D * sin (deg t)) i) w.

(** Argument conditions. *)
Open Scope Z_scope.
Definition valid_circle (nx ny : Z) (radius : R) (ns : Z) : Prop := 1 < nx /\ 0 < ny /\ (0 < radius)%R /\ 0 < ns.
Definition corner_window (nx ny : Z) (rx ry t xo yo : R) : R :=
  Rmax (Rabs (ellipse_level rx ry t (px nx xo 0) (px ny yo 1) - ellipse_level rx ry t (px nx xo 0) (px ny yo 0)))
       (Rabs (ellipse_level rx ry t (px nx xo 1) (px ny yo 0) - ellipse_level rx ry t (px nx xo 0) (px ny yo 0))).
Definition valid_ellipse (nx ny : Z) (rx ry : R) (ns : Z) : Prop :=
  1 < nx /\ 1 < ny /\ (0 < rx)%R /\ (0 < ry)%R /\ 0 < ns.
Definition valid_rect (nx ny : Z) (w h : R) (ns : Z) : Prop := 1 < nx /\ 0 < ny /\ (0 < w)%R /\ (0 < h)%R /\ 0 < ns.
Definition valid_segments (nSeg : Z) (rIn rOut : R) (nx ny : Z) (angOpen angRot : R) (ns : Z) (dTheta : R) : Prop :=
  (nSeg = 1 \/ nSeg = 2) /\ (0 < rIn)%R /\ (0 < rOut)%R /\ 1 < nx /\ 0 < ny /\ (0 <= angOpen)%R /\ (angRot < 360)%R /\ 0 < ns /\ (0 <= dTheta)%R.
(** Every subpixel of the pixel at (x, y) stays within [d] of the pixel's own direction, or the pixel is
    clear of the annulus. *)
Definition angularly_resolved (rIn rOut d x y : R) : Prop :=
  (/ 2 <= (x ^ 2 + y ^ 2) * sin d ^ 2)%R \/ (sqrt (x ^ 2 + y ^ 2) < rIn - sqrt 2)%R \/ (rOut + sqrt 2 < sqrt (x ^ 2 + y ^ 2))%R.
Definition valid_pupil (nx ny : Z) (dI dO width : R) (ns : Z) : Prop :=
  1 < nx /\ 0 < ny /\ (0 <= dI < dO)%R /\ (0 <= width)%R /\ 0 < ns.
