(** Specifications for actuator gain maps. *)
From Coq Require Import ZArith List Reals Sorted.
From Verif.Base Require Import Py Arr.
From Verif.Model Require Import GainMap.
Import ListNotations.
Open Scope Z_scope.

Definition ascending (v : list R) : Prop := StronglySorted Rlt v.
Definition nondecreasing (v : list R) : Prop := StronglySorted Rle v.
(** Calibration data: ascending commands [v], and a cube with one slice of heights per command, rows by cols actuators. *)
Definition calibration (v : list R) (c : cube) (rows cols : Z) : Prop :=
  ascending v /\ c_n c = len v /\ c_rows c = rows /\ c_cols c = cols.
(** The k-th calibration command and the height of actuator (i, j) there. *)
Definition command (v : list R) (k : Z) : R := nthR v k.
Definition height (c : cube) (i j k : Z) : R := at3 c k i j.
Definition heights_increase (v : list R) (c : cube) (i j : Z) : Prop :=
  forall k l, 0 <= k < l -> l < len v -> (height c i j k < height c i j l)%R.
Definition in_range (v : list R) (x : R) : Prop := (command v 0 <= x <= command v (len v - 1))%R.
(** What is required of SciPy's cubic spline: it passes through its points. *)
Definition interpolates (spline : list (R * R) -> R -> R) : Prop :=
  forall pts x y, NoDup (map fst pts) -> In (x, y) pts -> spline pts x = y.
(** The calibration points of actuator (i, j), and the same with the roles exchanged. *)
Definition points (v : list R) (c : cube) (i j : Z) : list (R * R) := combine v (map (fun k => at3 c k i j) (zrange (c_n c))).
Definition points_inv (v : list R) (c : cube) (i j : Z) : list (R * R) := combine (map (fun k => at3 c k i j) (zrange (c_n c))) v.
Definition clamp (lo hi x : R) : R := Rmax lo (Rmin hi x).
(** No two calibrated heights of the actuator agree. *)
Definition heights_distinct (v : list R) (c : cube) (i j : Z) : Prop :=
  forall k l, 0 <= k < l -> l < len v -> height c i j k <> height c i j l.
(** The height lies between two calibrated heights of the actuator. *)
Definition height_reached (v : list R) (c : cube) (i j : Z) (x : R) : Prop :=
  exists k l, 0 <= k < len v /\ 0 <= l < len v /\ (height c i j k <= x <= height c i j l)%R.
(** The actuator rises by [g] per unit of command. *)
Definition linear_response (v : list R) (c : cube) (i j : Z) (g o : R) : Prop :=
  forall k, 0 <= k < len v -> height c i j k = (g * command v k + o)%R.
(** Midway between the k-th and the next calibration command, and the mean slope of the actuator between the two. *)
Definition mid_command (v : list R) (k : Z) : R := ((command v k + command v (k + 1)) / 2)%R.
Definition mean_slope (v : list R) (c : cube) (i j k : Z) : R :=
  ((height c i j (k + 1) - height c i j k) / (command v (k + 1) - command v k))%R.
(** The straight line through (x0, y0) and (x1, y1). *)
Definition line_through (x0 y0 x1 y1 x : R) : R := ((y0 * (x1 - x) + y1 * (x - x0)) / (x1 - x0))%R.
(** [x] belongs to the k-th interval between midway commands; the first and last intervals have no outer end. *)
Definition in_interval (v : list R) (k : Z) (x : R) : Prop :=
  0 <= k <= len v - 3 /\ (k = 0 \/ (mid_command v k <= x)%R) /\ (k = len v - 3 \/ (x <= mid_command v (k + 1))%R).
