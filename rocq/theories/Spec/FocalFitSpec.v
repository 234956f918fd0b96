(** Specification of the focal-mask offset estimators. *)
From Coq Require Import ZArith List String Reals.
From Verif.Base Require Import Py Arr Sums.
From Verif.Model Require Import Yaml DarkHole FocalFit.
From Verif.Spec Require Import ShapesSpec DarkHoleSpec.
Open Scope string_scope.
Open Scope R_scope.

(** Modelled ratio of the two spot intensities for a mask offset d: 1 + c1 d + c2 d^2 for d >= 0, and its
    reciprocal for the mirrored offset. *)
Definition response (c1 c2 d ratio : R) : Prop :=
  (0 <= d /\ ratio = 1 + c1 * d + c2 * d ^ 2) \/ (d < 0 /\ ratio = / (1 + c1 * (- d) + c2 * d ^ 2)).
Definition clamp_abs (m x : R) : R := Rmax (- m) (Rmin m x).

(** [s] is the image summed over a disc of radius r centred at (cx, cy) from the centre pixel, pixels on the rim
    weighted by coverage. *)
Definition spot_sum (img : arr R) (r cx cy : R) (ns : Z) (s : R) : Prop :=
  exists w : Z -> Z -> R,
   (forall i j, (0 <= i < nr img)%Z -> (0 <= j < nc img)%Z -> coverage (disc r) ns (px (nc img) cx j) (px (nr img) cy i) (w i j)) /\
   s = rsum2 (fun i j => w i j * at2 img i j) (nr img) (nc img).
(** Nonpositive sums count as machine epsilon. *)
Definition floored (s v : R) : Prop := (0 < s /\ v = s) \/ (s <= 0 /\ v = / 2 ^ 52).
(** [v] is the brightness of the spot at separation [sep] and angle [t] from the star at (xo, yo). *)
Definition spot (img : arr R) (r xo yo sep t : R) (ns : Z) (v : R) : Prop :=
  exists s, spot_sum img r (xo + sep * cos t) (yo + sep * sin t) ns s /\ floored s v.

(** Contents of the tuning file of calc_offset_from_spots; [power] is 1 (linear) or 2 (quadratic). *)
Record tuning := Tuning { t_sep : R; t_radius : R; t_sub : Z; t_max : R; t_c1 : R; t_c2 : R; t_power : Z; t_inside : bool }.
Definition describes_tuning (v : yval) (t : tuning) : Prop :=
  has_real v "spotSepPix" (t_sep t) /\ 0 < t_sep t /\ has_real v "roiRadiusPix" (t_radius t) /\ 0 < t_radius t /\
  has_int v "nSubpixels" (t_sub t) /\ (0 < t_sub t)%Z /\ has_real v "maxStep" (t_max t) /\ 0 < t_max t /\
  has_real v "fitCoefPow1" (t_c1 t) /\ 0 < t_c1 t /\ has_real v "fitCoefPow2" (t_c2 t) /\ 0 < t_c2 t /\
  has_int v "powerOfFit" (t_power t) /\ (t_power t = 1 \/ t_power t = 2)%Z /\
  has_int v "maskIsInsideSpots" (if t_inside t then 1 else 0)%Z.
Definition t_quad (t : tuning) : R := if Z.eqb (t_power t) 1 then 0 else t_c2 t.
Definition describes_target (v : yval) (ratio : R) : Prop := has_real v "targetRatio" ratio /\ 0 < ratio.
Definition side (inside : bool) : R := if inside then 1 else - 1.

(** Contents of the tuning file of calc_bowtie_offsets_from_spots. *)
Record bowtie := BowtieTuning { b_sep : R; b_rot : R; b_extra : R; b_radius : R; b_sub : Z; b_max : R;
  b_c1x : R; b_c2x : R; b_c1y : R; b_c2y : R; b_tx : R; b_ty : R }.
Definition describes_bowtie (v : yval) (t : bowtie) : Prop :=
  has_real v "spotSepPix" (b_sep t) /\ 0 < b_sep t /\ has_real v "spotRotDeg" (b_rot t) /\ has_real v "spotExtraRotDeg" (b_extra t) /\
  has_real v "roiRadiusPix" (b_radius t) /\ 0 < b_radius t /\ has_int v "nSubpixels" (b_sub t) /\ (0 < b_sub t)%Z /\
  has_real v "maxStep" (b_max t) /\ 0 < b_max t /\
  has_real v "fitCoefPow1x" (b_c1x t) /\ 0 < b_c1x t /\ has_real v "fitCoefPow2x" (b_c2x t) /\ 0 < b_c2x t /\
  has_real v "fitCoefPow1y" (b_c1y t) /\ 0 < b_c1y t /\ has_real v "fitCoefPow2y" (b_c2y t) /\ 0 < b_c2y t /\
  has_real v "xRatioTarget" (b_tx t) /\ 0 < b_tx t /\ has_real v "yRatioTarget" (b_ty t) /\ 0 < b_ty t.
