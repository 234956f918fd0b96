(** Superpositions of sinusoids over a rectangle of spatial frequencies. *)
From Coq Require Import ZArith Reals.
From Coquelicot Require Import Coquelicot.
From Verif.Base Require Import Py Arr.
Open Scope R_scope.

(** [v] is the integral of [f xi eta] over [x0,x1] x [e0,e1]. *)
Definition integral2 (f : R -> R -> R) (x0 x1 e0 e1 v : R) : Prop :=
  exists g, (forall xi, is_RInt (f xi) e0 e1 (g xi)) /\ is_RInt g x0 x1 v.
(** Coordinates, in actuators, of column (row) [k] of [n] relative to the centre of the DM. *)
Definition act (n k : Z) : R := IZR k - (IZR n - 1) / 2.
(** (x, y) turned by [t] degrees, counter-clockwise. *)
Definition turn_x (t x y : R) : R := x * cos (t * PI / 180) - y * sin (t * PI / 180).
Definition turn_y (t x y : R) : R := x * sin (t * PI / 180) + y * cos (t * PI / 180).
(** A sinusoid of xi cycles across [dact] actuators in x and eta in y, with phase in degrees. *)
Definition wave (dact amp phase xi eta x y : R) : R :=
  amp * sin (2 * PI * (x * xi + y * eta) / dact + phase * PI / 180).
