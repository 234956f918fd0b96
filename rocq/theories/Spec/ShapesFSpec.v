(** Terms used to state what circle() does in double precision. *)
From Coq Require Import ZArith Bool Reals.
From Flocq Require Import Core BinarySingleNaN.
From Verif.Base Require Import F64.
Open Scope R_scope.

(** A finite double of at most 2^k in absolute value. *)
Definition double_within (k : Z) (x : f64) : Prop := is_finite x = true /\ Rabs (fval x) <= bpow radix2 k.
(** Arguments circle() accepts, of any realistic size. *)
Definition circle_args (nx ny : Z) (radius xo yo : f64) (ns : Z) : Prop :=
  (1 < nx <= 2 ^ 50)%Z /\ (0 < ny <= 2 ^ 50)%Z /\ (1 <= ns <= 2 ^ 26)%Z /\
  double_within 400 radius /\ double_within 400 xo /\ double_within 400 yo /\ 0 < fval radius.
(** Both offsets are whole numbers of pixels. *)
Definition whole_offsets (xo yo : f64) (a b : Z) : Prop :=
  fval xo = IZR a /\ fval yo = IZR b /\ (Z.abs a <= 2 ^ 50)%Z /\ (Z.abs b <= 2 ^ 50)%Z.
(** Column j of an array of n columns, relative to a centre a pixels right of the middle column. *)
Definition shift_from (n a j : Z) : Z := (j - n / 2 - a)%Z.
(** Two displacements that differ by a reflection in an axis or a diagonal. *)
Definition mirrored (u v u' v' : Z) : Prop :=
  (Z.abs u = Z.abs u' /\ Z.abs v = Z.abs v') \/ (Z.abs u = Z.abs v' /\ Z.abs v = Z.abs u').
(** Points whose distance from the centre is within [t] of the radius [r]. *)
Definition rim (r t x y : R) : Prop := Rabs (sqrt (x ^ 2 + y ^ 2) - r) <= t.
(** Arguments of circle() with sizes, radius and offsets of at most 2^k pixels. *)
Definition circle_args_upto (k nx ny : Z) (radius xo yo : f64) (ns : Z) : Prop :=
  (0 <= k <= 40)%Z /\ (1 < nx <= 2 ^ k)%Z /\ (0 < ny <= 2 ^ k)%Z /\ (1 <= ns <= 2 ^ 26)%Z /\
  double_within k radius /\ double_within k xo /\ double_within k yo /\ 0 < fval radius.
