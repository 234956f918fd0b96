(** Integral over the disc of given radius about the origin, in polar coordinates. *)
From Coq Require Import Reals.
From Coquelicot Require Import Coquelicot.
Open Scope R_scope.

Definition disk_integral (radius : R) (f : R -> R -> R) (v : R) : Prop :=
  exists ring : R -> R,
    (forall r, 0 < r < radius -> is_RInt (fun t => f (r * cos t) (r * sin t)) (- PI) PI (ring r)) /\
    is_RInt (fun r => r * ring r) 0 radius v.
(** Mean over the disc. *)
Definition disk_mean (radius : R) (f : R -> R -> R) (v : R) : Prop :=
  disk_integral radius f (v * (PI * radius ^ 2)).
