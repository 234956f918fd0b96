(** A mask with a grid of usable pixels. *)
From Coq Require Import ZArith Reals List.
From Verif.Base Require Import Arr.
From Verif.Spec Require Import ZernikeSpec.
Open Scope Z_scope.

(** More than [d] rows and more than [d] columns that meet in usable pixels only. *)
Definition has_grid (usable : arr R) (d : Z) : Prop :=
  exists rows cols : list Z, NoDup rows /\ NoDup cols /\
    d < Z.of_nat (length rows) /\ d < Z.of_nat (length cols) /\
    forall r c, In r rows -> In c cols -> used usable r c.
