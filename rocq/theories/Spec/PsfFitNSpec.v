(** Images with bad pixels, for the properties of psffit: [None] is nan. *)
From Coq Require Import ZArith Reals.
From Verif.Base Require Import Py Arr.
Open Scope Z_scope.

Definition bad_image (a : arr (option R)) : Prop := exists i j, in_arr a i j /\ at2 a i j = None.
(** An image without bad pixels. *)
Definition clean (a : arr R) : arr (option R) := amap Some a.
