(** Polar coordinates. *)
From Coq Require Import Reals.
Open Scope R_scope.
(** (rho, theta) are polar coordinates of (x, y) with the angle in (-pi, pi]. *)
Definition polar_of (x y rho theta : R) : Prop :=
  0 <= rho /\ - PI < theta <= PI /\ rho * cos theta = x /\ rho * sin theta = y.
