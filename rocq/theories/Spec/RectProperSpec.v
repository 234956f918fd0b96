(** What rect_proper should draw, without reference to how it draws it. *)
From Coq Require Import ZArith Reals.
Open Scope R_scope.

(** (x, y), measured from the centre of the rectangle, is in the rectangle of the given width and height after a
    counter-clockwise rotation by [t] radians. *)
Definition in_rotated_rect (width height t x y : R) : Prop :=
  - (width / 2) <= cos t * x + sin t * y <= width / 2 /\ - (height / 2) <= - sin t * x + cos t * y <= height / 2.

(** [len] is the length of the part of [p, q] where [P] holds: an interval (l, r), up to its ends. *)
Definition length_where (P : R -> Prop) (p q len : R) : Prop :=
  exists l r, p <= l <= r /\ r <= q /\ len = r - l /\
  (forall x, p < x < q -> P x -> l <= x <= r) /\ (forall x, l < x < r -> P x).
